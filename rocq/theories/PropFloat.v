(** Properties C72-C75: what the library computes on IEEE doubles.  Vocabulary: FloatSpec.v ([double]: a
    binary64 bit pattern, [finite]: no infinity or NaN, [real]: the real number it stands for).  The number
    type is [NumF64]: every + - * / sqrt is rounded once, to nearest, ties to even. *)
From Coq Require Import ZArith Reals List Arith Bool SpecFloat Lia Lra Permutation.
From Verif Require Import Base BaseProofs Num NumInst Spec VectorModel VectorSpec SparseModel SparseSpec DenseModel DenseSpec
  MatI MatIProofs MatOps LUModel LUSolve ExampleBase DetSpec FloatSpec FloatLUSpec FloatResult FloatSolve FloatLU FloatLUSolve.
Import ListNotations.
Local Open Scope nat_scope.
Open Scope res_scope.

(** ** Example data: reading a double as an integer *)
Definition int_check (x : NumF64) (z : Z) : bool :=
  valid_binary prec64 emax64 x &&
  match (x : spec_float) with
  | S754_zero _ => (z =? 0)%Z
  | S754_finite s m e => ((if s then Zneg m else Zpos m) * 2 ^ Z.max e 0 =? z * 2 ^ Z.max (- e) 0)%Z
  | _ => false
  end.
Lemma int_checked x z : int_check x z = true -> is_int x z.
Proof.
  unfold int_check, is_int. intros H. apply andb_prop in H. destruct H as [H1 H2]. split; [exact H1|].
  destruct x as [s|s| |s m e]; try discriminate; (split; [exact I|]); cbn [real].
  - apply Z.eqb_eq in H2. now rewrite H2.
  - apply Z.eqb_eq in H2. set (w := if s then Z.neg m else Z.pos m) in *.
    apply (f_equal IZR) in H2. rewrite !mult_IZR in H2. destruct (Z.le_gt_cases 0 e) as [He|He].
    + rewrite Z.max_l, Z.max_r in H2 by lia. rewrite Z.pow_0_r, Rmult_1_r in H2. rewrite <- H2. f_equal.
      rewrite <- (Z2Nat.id e He). rewrite <- pow_IZR. symmetry. apply pow_powerRZ.
    + rewrite Z.max_r, Z.max_l in H2 by lia. rewrite Z.pow_0_r, Rmult_1_r in H2. rewrite H2.
      rewrite <- (Z2Nat.id (- e)) by lia. rewrite <- pow_IZR. rewrite pow_powerRZ, Z2Nat.id by lia.
      rewrite Rmult_assoc, <- powerRZ_add by lra. replace (- e + e)%Z with 0%Z by lia. cbn. ring.
Qed.
Ltac ints_by_computation := intros; apply int_checked; repeat match goal with i : nat |- _ => destruct i as [|i]; try lia; try reflexivity end.

(** ** C72: integers are exact.
    As long as the sums of the absolute values of the terms stay below 2^53, vectors and matrices of
    integer-valued doubles behave exactly like vectors and matrices of integers. *)
Theorem C72_vector : forall (v w : list NumF64) a b n, length v = n -> length w = n ->
  (forall i, i < n -> is_int (nth i v n0) (a i)) -> (forall i, i < n -> is_int (nth i w n0) (b i)) ->
  ((zsum n (fun i => Z.abs (a i)) <= 2 ^ 53)%Z -> exists r, v_sum v = Ok r /\ is_int r (zsum n a)) /\
  ((zsum n (fun i => Z.abs (a i * b i)) <= 2 ^ 53)%Z -> exists r, v_dot v w = Ok r /\ is_int r (zsum n (fun i => a i * b i)%Z)) /\
  ((forall i, i < n -> (Z.abs (a i + b i) <= 2 ^ 53)%Z) ->
     exists r, v_add v w = Ok r /\ length r = n /\ forall i, i < n -> is_int (nth i r n0) (a i + b i)) /\
  ((forall i, i < n -> (Z.abs (a i - b i) <= 2 ^ 53)%Z) ->
     exists r, v_sub v w = Ok r /\ length r = n /\ forall i, i < n -> is_int (nth i r n0) (a i - b i)) /\
  ((forall i, i < n -> (Z.abs (a i * b i) <= 2 ^ 53)%Z) ->
     exists r, v_mul v w = Ok r /\ length r = n /\ forall i, i < n -> is_int (nth i r n0) (a i * b i)) /\
  (forall f c, is_int f c -> (forall i, i < n -> (Z.abs (a i * c) <= 2 ^ 53)%Z) ->
     exists r, v_scale v f = Ok r /\ length r = n /\ forall i, i < n -> is_int (nth i r n0) (a i * c)).
Proof. exact int_vector. Qed.
(** Products of matrices ... *)
Theorem C72_dense_product : forall A B d1 d2 d3 a b p q, dbuilt A -> dbuilt B -> dreads A d1 d2 a -> dreads B d2 d3 b ->
  ints d1 d2 a p -> ints d2 d3 b q ->
  (forall i k, i < d1 -> k < d3 -> (zsum d2 (fun j => Z.abs (p i j * q j k)) <= 2 ^ 53)%Z) ->
  exists C c, d_fixed_mul A B = Ok C /\ (0 < d1 -> 0 < d3 -> d_mul A B = Ok C) /\ dreads C d1 d3 c /\
    ints d1 d3 c (fun i k => zsum d2 (fun j => p i j * q j k)%Z).
Proof. exact int_dense. Qed.
Theorem C72_sparse_product : forall A B d1 d2 d3 a b p q, built A -> built B -> reads A d1 d2 a -> reads B d2 d3 b ->
  ints d1 d2 a p -> ints d2 d3 b q ->
  (forall i k, i < d1 -> k < d3 -> (zsum d2 (fun j => Z.abs (p i j * q j k)) <= 2 ^ 53)%Z) ->
  exists C c, s_mul A B = Ok C /\ reads C d1 d3 c /\ ints d1 d3 c (fun i k => zsum d2 (fun j => p i j * q j k)%Z).
Proof. exact int_sparse. Qed.
(** ... sums, differences, multiples, products with vectors and traces. *)
Theorem C72_dense_operations : forall A B d1 d2 a b p q, dbuilt A -> dbuilt B -> dreads A d1 d2 a -> dreads B d1 d2 b ->
  ints d1 d2 a p -> ints d1 d2 b q ->
  ((forall i j, i < d1 -> j < d2 -> (Z.abs (p i j + q i j) <= 2 ^ 53)%Z) ->
     exists C c, d_add A B = Ok C /\ dreads C d1 d2 c /\ ints d1 d2 c (fun i j => p i j + q i j)%Z) /\
  ((forall i j, i < d1 -> j < d2 -> (Z.abs (p i j - q i j) <= 2 ^ 53)%Z) ->
     exists C c, d_sub A B = Ok C /\ dreads C d1 d2 c /\ ints d1 d2 c (fun i j => p i j - q i j)%Z) /\
  (forall f z, is_int f z -> (forall i j, i < d1 -> j < d2 -> (Z.abs (p i j * z) <= 2 ^ 53)%Z) ->
     exists C c, d_scale A f = Ok C /\ dreads C d1 d2 c /\ ints d1 d2 c (fun i j => p i j * z)%Z) /\
  (forall v t, length v = d2 -> (forall j, j < d2 -> is_int (nth j v n0) (t j)) ->
     (forall i, i < d1 -> (zsum d2 (fun j => Z.abs (p i j * t j)) <= 2 ^ 53)%Z) ->
     exists r, d_mulv A v = Ok r /\ length r = d1 /\ forall i, i < d1 -> is_int (nth i r n0) (zsum d2 (fun j => p i j * t j)%Z)) /\
  ((zsum (Nat.min d1 d2) (fun i => Z.abs (p i i)) <= 2 ^ 53)%Z ->
     exists r, d_trace A = Ok r /\ is_int r (zsum (Nat.min d1 d2) (fun i => p i i))).
Proof. exact int_dense_ops. Qed.
Theorem C72_sparse_operations : forall A B d1 d2 a b p q, built A -> built B -> reads A d1 d2 a -> reads B d1 d2 b ->
  ints d1 d2 a p -> ints d1 d2 b q ->
  ((forall i j, i < d1 -> j < d2 -> (Z.abs (p i j + q i j) <= 2 ^ 53)%Z) ->
     exists C c, s_add A B = Ok C /\ reads C d1 d2 c /\ ints d1 d2 c (fun i j => p i j + q i j)%Z) /\
  ((forall i j, i < d1 -> j < d2 -> (Z.abs (p i j - q i j) <= 2 ^ 53)%Z) ->
     exists C c, s_sub A B = Ok C /\ reads C d1 d2 c /\ ints d1 d2 c (fun i j => p i j - q i j)%Z) /\
  (forall f z, is_int f z -> (forall i j, i < d1 -> j < d2 -> (Z.abs (p i j * z) <= 2 ^ 53)%Z) ->
     exists C c, s_scale A f = Ok C /\ reads C d1 d2 c /\ ints d1 d2 c (fun i j => p i j * z)%Z) /\
  (forall v t, length v = d2 -> (forall j, j < d2 -> is_int (nth j v n0) (t j)) ->
     (forall i, i < d1 -> (zsum d2 (fun j => Z.abs (p i j * t j)) <= 2 ^ 53)%Z) ->
     exists r, s_mulv A v = Ok r /\ length r = d1 /\ forall i, i < d1 -> is_int (nth i r n0) (zsum d2 (fun j => p i j * t j)%Z)) /\
  ((zsum (Nat.min d1 d2) (fun i => Z.abs (p i i)) <= 2 ^ 53)%Z ->
     exists r, s_trace A = Ok r /\ is_int r (zsum (Nat.min d1 d2) (fun i => p i i))).
Proof. exact int_sparse_ops. Qed.
(** The bound 2^53 cannot be dropped: 2^53 + 1 + 1 is computed as 2^53. *)
Theorem C72_limit_refuted : exists v : list NumF64, is_int (nth 0 v n0) (2 ^ 53) /\ is_int (nth 1 v n0) 1 /\ is_int (nth 2 v n0) 1 /\
  length v = 3 /\ exists r, v_sum v = Ok r /\ is_int r (2 ^ 53).
Proof.
  exists [fz (2 ^ 53); fz 1; fz 1]. split; [apply int_checked; reflexivity|]. split; [apply int_checked; reflexivity|].
  split; [apply int_checked; reflexivity|]. split; [reflexivity|].
  exists (fz (2 ^ 53)). split; [vm_compute; reflexivity|apply int_checked; reflexivity].
Qed.
Definition fdA : dmat NumF64 := get d_default (d_of_list [[fz 1; fz 2; fz 3]; [fz 4; fz 5; fz (-6)]]).
Definition fdp (i j : nat) : Z := nth j (nth i [[1; 2; 3]; [4; 5; -6]]%Z []) 0%Z.
Example C72_dense_example : dbuilt fdA /\ dreads fdA 2 3 (fun i j => fz (fdp i j)) /\ ints 2 3 (fun i j => fz (fdp i j)) fdp /\
  (forall i k, i < 2 -> k < 2 -> (zsum 3 (fun j => Z.abs (fdp i j * fdp k j)) <= 2 ^ 53)%Z) /\
  (let* B := d_transpose fdA in let* C := d_mul fdA B in d_entries C) = Ok [(0,0,fz 14); (0,1,fz (-4)); (1,0,fz (-4)); (1,1,fz 77)].
Proof.
  split; [eapply db_list; apply ok_get; vm_compute; reflexivity|].
  split; [split; [reflexivity|split; [reflexivity|]]; intros i j Hi Hj; destruct i as [|[|i]]; try lia; destruct j as [|[|[|j]]]; try lia; vm_compute; reflexivity|].
  split; [intros i j Hi Hj; apply int_checked; destruct i as [|[|i]]; try lia; destruct j as [|[|[|j]]]; try lia; vm_compute; reflexivity|].
  split; [intros i k Hi Hk; destruct i as [|[|i]]; try lia; destruct k as [|[|k]]; try lia; vm_compute; discriminate|].
  vm_compute. reflexivity.
Qed.

(** ** C73: rounding errors of vectors and matrices *)
(** Elementwise operations return the double nearest to the exact result whenever that result is finite. *)
Theorem C73_elementwise_nearest : forall v w : list NumF64, length v = length w -> doubles v -> doubles w ->
  exists p q r d, v_add v w = Ok p /\ v_sub v w = Ok q /\ v_mul v w = Ok r /\ v_div v w = Ok d /\
  forall i, i < length v -> let x := nth i v n0 in let y := nth i w n0 in
    (finite (nth i p n0) -> finite x /\ finite y /\ nearest (nth i p n0) (real x + real y)) /\
    (finite (nth i q n0) -> finite x /\ finite y /\ nearest (nth i q n0) (real x - real y)) /\
    (finite (nth i r n0) -> finite x /\ finite y /\ nearest (nth i r n0) (real x * real y)) /\
    (finite (nth i d n0) -> finite y -> finite x /\ real y <> 0%R /\ nearest (nth i d n0) (real x / real y)).
Proof. exact nearest_vector. Qed.
(** sum() and dot(): relative to the sum of the absolute values the error is at most (1+2^-53)^n - 1, plus
    the underflow of the products.  If the result is finite, so were all elements. *)
Theorem C73_sum_and_dot : forall (v w : list NumF64) n, length v = n -> length w = n -> doubles v -> doubles w ->
  (exists r, v_sum v = Ok r /\ (finite r -> (forall i, i < n -> finite (nth i v n0)) /\
     (Rabs (real r - rsum n (fun i => real (nth i v n0))) <= ((1 + u64) ^ (n - 1) - 1) * rsum n (fun i => Rabs (real (nth i v n0))))%R)) /\
  (exists r, v_dot v w = Ok r /\ (finite r -> (forall i, i < n -> finite (nth i v n0) /\ finite (nth i w n0)) /\
     (Rabs (real r - rsum n (fun i => real (nth i v n0) * real (nth i w n0)))
       <= dot_bound n (rsum n (fun i => Rabs (real (nth i v n0) * real (nth i w n0)))))%R)).
Proof. exact err_vector. Qed.
(** The result of dot() is finite if the sum of the absolute products stays clear of the overflow threshold. *)
Theorem C73_dot_no_overflow : forall (v w : list NumF64) n, length v = n -> length w = n -> doubles v -> doubles w ->
  (forall i, i < n -> finite (nth i v n0) /\ finite (nth i w n0)) ->
  ((1 + u64) ^ (n + 1) * (rsum n (fun i => Rabs (real (nth i v n0) * real (nth i w n0))) + INR n * eta64) < powerRZ 2 1024)%R ->
  exists r, v_dot v w = Ok r /\ double r /\ finite r.
Proof. exact total_vector. Qed.
(** mag(): with s the exact sum of the squares, |mag - sqrt s| sqrt s <= ((1+2^-53)^(n+1) - 1) s + underflow. *)
Theorem C73_mag : forall (v : list NumF64) n, length v = n -> doubles v ->
  exists r, v_mag v = Ok r /\ (finite r -> (forall i, i < n -> finite (nth i v n0)) /\ (0 <= real r)%R /\
    let s := rsum n (fun i => real (nth i v n0) * real (nth i v n0))%R in
    (Rabs (real r - sqrt s) * sqrt s <= ((1 + u64) ^ (n + 1) - 1) * s + (INR n * (1 + u64) ^ (n + 1) + sqrt s) * eta64)%R).
Proof. exact err_mag. Qed.
(** max() and min() of finite doubles are exact.  max() needs an element that is at least the smallest
    positive normal number (see C24). *)
Theorem C73_max_min : forall v : list NumF64, doubles v -> (forall x, In x v -> finite x) ->
  ((exists x, In x v /\ (powerRZ 2 (-1022) <= real x)%R) ->
     exists r, v_max v = Ok r /\ In r v /\ forall x, In x v -> (real x <= real r)%R) /\
  (v <> [] -> exists r, v_min v = Ok r /\ In r v /\ forall x, In x v -> (real r <= real x)%R).
Proof. exact extreme_vector. Qed.
(** Matrix products, entry by entry; a sparse row counts only its non-zero entries. *)
Theorem C73_dense_product : forall A B d1 d2 d3 a b, dbuilt A -> dbuilt B -> dreads A d1 d2 a -> dreads B d2 d3 b ->
  doubles2 d1 d2 a -> doubles2 d2 d3 b ->
  exists C c, d_fixed_mul A B = Ok C /\ (0 < d1 -> 0 < d3 -> d_mul A B = Ok C) /\ dreads C d1 d3 c /\
    forall i k, i < d1 -> k < d3 -> finite (c i k) ->
      (Rabs (real (c i k) - rsum d2 (fun j => real (a i j) * real (b j k)))
        <= dot_bound d2 (rsum d2 (fun j => Rabs (real (a i j) * real (b j k)))))%R.
Proof. exact err_dense. Qed.
Theorem C73_sparse_product : forall A B d1 d2 d3 a b, built A -> built B -> reads A d1 d2 a -> reads B d2 d3 b ->
  doubles2 d1 d2 a -> doubles2 d2 d3 b ->
  exists C c, s_mul A B = Ok C /\ reads C d1 d3 c /\
    forall i k, i < d1 -> k < d3 -> finite (c i k) ->
      (Rabs (real (c i k) - rsum d2 (fun j => real (a i j) * real (b j k)))
        <= dot_bound (nonzero_count d2 (a i)) (rsum d2 (fun j => Rabs (real (a i j) * real (b j k)))))%R.
Proof. exact err_sparse. Qed.
Theorem C73_dense_vector_product : forall A d1 d2 a v, dreads A d1 d2 a -> doubles2 d1 d2 a -> length v = d2 -> doubles v ->
  exists r, d_mulv A v = Ok r /\ length r = d1 /\
    forall i, i < d1 -> finite (nth i r n0) ->
      (Rabs (real (nth i r n0) - rsum d2 (fun j => real (a i j) * real (nth j v n0)))
        <= dot_bound d2 (rsum d2 (fun j => Rabs (real (a i j) * real (nth j v n0)))))%R.
Proof. exact err_dense_vector. Qed.
Theorem C73_sparse_vector_product : forall A d1 d2 a v, built A -> reads A d1 d2 a -> doubles2 d1 d2 a -> length v = d2 -> doubles v ->
  exists r, s_mulv A v = Ok r /\ length r = d1 /\
    forall i, i < d1 -> finite (nth i r n0) ->
      (Rabs (real (nth i r n0) - rsum d2 (fun j => real (a i j) * real (nth j v n0)))
        <= dot_bound (nonzero_count d2 (a i)) (rsum d2 (fun j => Rabs (real (a i j) * real (nth j v n0)))))%R.
Proof. exact err_sparse_vector. Qed.
(** [BUG] Division by a scalar multiplies by the rounded reciprocal: [49] / 49 is not [1], although 1 is
    exactly representable (v / w elementwise returns 1). *)
Theorem C73_scalar_division_refuted : exists (v : list NumF64) f r, doubles v /\ is_int (nth 0 v n0) 49 /\ is_int f 49 /\
  v_divs v f = Ok [r] /\ finite r /\ ~ nearest r (real (nth 0 v n0) / real f) /\ exists o, v_div v [f] = Ok [o] /\ is_int o 1.
Proof.
  exists [fz 49], (fz 49), (S754_finite false 9007199254740991 (-53)).
  assert (I49 : is_int (fz 49) 49) by (apply int_checked; reflexivity).
  assert (I1 : is_int (fz 1) 1) by (apply int_checked; reflexivity).
  split; [intros x [<-|[]]; reflexivity|]. split; [exact I49|]. split; [exact I49|]. split; [vm_compute; reflexivity|].
  split; [exact I|]. split; [|exists (fz 1); split; [vm_compute; reflexivity|exact I1]].
  intros [_ H]. destruct I49 as (_ & _ & E49). destruct I1 as (D1 & F1 & E1).
  specialize (H (fz 1) D1 F1). cbn [nth] in H. rewrite E49, E1 in H. replace (49 / 49)%R with 1%R in H by field.
  rewrite Rminus_diag_eq with (r1 := 1%R) (r2 := 1%R) in H by reflexivity. rewrite Rabs_R0 in H.
  assert (X : real (S754_finite false 9007199254740991 (-53)) = 1%R).
  { pose proof (Rabs_pos (real (S754_finite false 9007199254740991 (-53)) - 1)). 
    destruct (Req_dec (real (S754_finite false 9007199254740991 (-53)) - 1) 0) as [Z|Z]; [lra|]. apply Rabs_pos_lt in Z. lra. }
  cbn [real] in X. apply (f_equal (Rmult (powerRZ 2 53))) in X. rewrite (Rmult_comm (IZR _)), <- Rmult_assoc, <- powerRZ_add in X by lra.
  change (53 + -53)%Z with 0%Z in X. rewrite powerRZ_O, Rmult_1_l, Rmult_1_r in X.
  change 53%Z with (Z.of_nat 53) in X. rewrite <- pow_powerRZ in X. rewrite pow_IZR in X. apply eq_IZR in X. discriminate.
Qed.
(** [BUG] mag() squares without scaling: the norm of [2^600] is computed as infinity and the one of [2^-600]
    as zero, although 2^600 and 2^-600 are doubles. *)
Definition two_to (e : Z) : NumF64 := S754_finite false (2 ^ 52) (e - 52).
Theorem C73_mag_refuted : forall e, e = 600%Z \/ e = (-600)%Z -> double (two_to e) /\ finite (two_to e) /\ real (two_to e) = powerRZ 2 e /\
  v_mag [two_to e] = Ok (if (0 <? e)%Z then S754_infinity false else S754_zero false).
Proof.
  intros e He. split; [destruct He; subst; reflexivity|]. split; [exact I|].
  split; [|destruct He; subst; vm_compute; reflexivity].
  cbn [real two_to]. change (Z.pos (2 ^ 52)) with (2 ^ Z.of_nat 52)%Z. rewrite <- pow_IZR, pow_powerRZ, <- powerRZ_add by lra.
  f_equal. lia.
Qed.
Example C73_example : doubles [fz 1; fz 49] /\ (exists d, v_div [fz 1; fz 1] [fz 3; fz 49] = Ok d /\ finite (nth 1 d n0)) /\
  v_mag [fz 3; fz 4] = Ok (fz 5) /\ v_max [fz 3; fz (-4)] = Ok (fz 3) /\ v_min [fz 3; fz (-4)] = Ok (fz (-4)) /\ double (fz 3) /\ nonzero_count 3 (fun j => nth j [fz 1; fz 0; fz 2] n0) = 2.
Proof.
  split; [intros x [<-|[<-|[]]]; reflexivity|]. split; [eexists; split; [vm_compute; reflexivity|exact I]|].
  repeat split; vm_compute; reflexivity.
Qed.

(** ** C74: solve_lu on doubles *)
Inductive double_rows : RowMat NumF64 -> Prop :=
| dr_dense : double_rows (DenseR NumF64)
| dr_sparse : double_rows (SparseR NumF64).
Lemma dr_reads M : double_rows M -> RowReads M.
Proof. intros []; [exact dense_reads|exact sparse_reads]. Qed.
(** The two substitutions are row-wise backward stable: whenever the computed x is finite there is an
    intermediate y such that every equation of L y = b and of U x = y is satisfied up to
    (1+2^-53)^n - 1 times the sum of the absolute values of its terms (plus underflow). *)
Theorem C74_rows : forall M, double_rows M -> forall (L U : M) n l u b, 0 < n ->
  holds L n n l -> holds U n n u -> length b = n ->
  doubles2 n n l -> doubles2 n n u -> all_finite n l -> all_finite n u -> doubles b ->
  post (solve_lu L U b) (fun x => length x = n /\ ((forall i, i < n -> finite (nth i x n0)) -> doubles x /\ exists y : nat -> R,
      (forall i, (i < n)%nat -> Rabs (rsum (S i) (fun j => real (l i j) * y j) - real (nth i b n0))
         <= row_bound n (rsum (S i) (fun j => Rabs (real (l i j) * y j))) (real (l i i)))%R /\
      (forall i, (i < n)%nat -> Rabs (rsum (n - i) (fun t => real (u i (i + t)%nat) * real (nth (i + t) x n0)) - y i)
         <= row_bound n (rsum (n - i) (fun t => Rabs (real (u i (i + t)%nat) * real (nth (i + t) x n0)))) (real (u i i)))%R))
    (fun e => e = Singular).
Proof. intros M HM. exact (solve_float (dr_reads M HM)). Qed.
(** Hence the residual of the computed solution, | L (U x) - b | <= ((1+2^-53)^(2n) - 1) |L| |U| |x| + underflow. *)
Theorem C74_residual : forall M, double_rows M -> forall (L U : M) n l u b x, 0 < n ->
  holds L n n l -> holds U n n u -> length b = n ->
  doubles2 n n l -> doubles2 n n u -> all_finite n l -> all_finite n u -> doubles b ->
  solve_lu L U b = Ok x -> (forall i, i < n -> finite (nth i x n0)) ->
  forall i, i < n ->
    (Rabs (rsum (S i) (fun j => real (l i j) * rsum (n - j) (fun t => real (u j (j + t)%nat) * real (nth (j + t) x n0))) - real (nth i b n0))
     <= solve_bound n (rsum (S i) (fun j => Rabs (real (l i j)) * rsum (n - j) (fun t => Rabs (real (u j (j + t)%nat) * real (nth (j + t) x n0)))))
          (INR n + Rabs (real (l i i)) + rsum (S i) (fun j => Rabs (real (l i j)) * (INR n + Rabs (real (u j j))))))%R.
Proof.
  intros M HM L U n l u b x Hn HL HU Hb Dl Du Fl Fu Db E Fx.
  pose proof (solve_float (dr_reads M HM) L U n l u b Hn HL HU Hb Dl Du Fl Fu Db) as H. rewrite E in H. cbn [post] in H.
  destruct H as (_ & H). destruct (H Fx) as (_ & y & H1 & H2).
  exact (solve_combine n (fun i j => real (l i j)) (fun i j => real (u i j)) (fun i => real (nth i x n0)) y (fun i => real (nth i b n0)) H1 H2).
Qed.
Definition fL : DenseR NumF64 := get d_default (d_of_list [[fz 1; fz 0]; [fz 1; fz 1]]).
Definition fU : DenseR NumF64 := get d_default (d_of_list [[fz 3; fz 1]; [fz 0; fz 7]]).
Example C74_example : double_rows (DenseR NumF64) /\
  (exists l, holds fL 2 2 l /\ doubles2 2 2 l /\ all_finite 2 l) /\ (exists u, holds fU 2 2 u /\ doubles2 2 2 u /\ all_finite 2 u) /\
  (let* x := solve_lu fL fU [fz 1; fz 2] in Ok (match x with [p; q] => neqb q (fz 1 / fz 7)%num && neqb p ((fz 1 - fz 1 / fz 7) / fz 3)%num | _ => false end)) = Ok true.
Proof.
  split; [exact dr_dense|].
  split; [|split; [|vm_compute; reflexivity]].
  - exists (fun i j => nth j (nth i [[fz 1; fz 0]; [fz 1; fz 1]] []) n0).
    split; [|split; intros i j Hi Hj; destruct i as [|[|i]]; try lia; destruct j as [|[|j]]; try lia; (exact I || reflexivity)].
    split; [reflexivity|]. split; [reflexivity|]. split; [reflexivity|].
    intros i j Hi Hj; destruct i as [|[|i]]; try lia; destruct j as [|[|j]]; try lia; vm_compute; reflexivity.
  - exists (fun i j => nth j (nth i [[fz 3; fz 1]; [fz 0; fz 7]] []) n0).
    split; [|split; intros i j Hi Hj; destruct i as [|[|i]]; try lia; destruct j as [|[|j]]; try lia; (exact I || reflexivity)].
    split; [reflexivity|]. split; [reflexivity|]. split; [reflexivity|].
    intros i j Hi Hj; destruct i as [|[|i]]; try lia; destruct j as [|[|j]]; try lia; vm_compute; reflexivity.
Qed.

(** ** C75: doolittle on doubles *)
(** The decomposition ends with factors or with Singular.  The pivots are the largest candidates, so the
    multipliers are at most 1 in spite of rounding, and L U reproduces the row-permuted matrix up to
    (1+2^-53)^(n+1) - 1 times |L||U| plus underflow ([lu_bounds] in FloatLUSpec.v). *)
Theorem C75_dense : forall (A L0 P0 : DenseI NumF64) n a l0 p0, 0 < n -> holds A n n a -> holds L0 n n l0 -> holds P0 n n p0 ->
  doubles2 n n a -> doubles2 n n l0 -> post (doolittle_dense A L0 P0) (lu_float n a l0 p0) (fun e => e = Singular).
Proof. exact dense_f. Qed.
Theorem C75_sparse : forall (A : SparseI NumF64) n a, 0 < n -> holds A n n a -> doubles2 n n a ->
  post (doolittle_sparse A) (lu_float n a (fun _ _ => n0) (fun _ _ => n0)) (fun e => e = Singular).
Proof. exact sparse_f. Qed.
(** Solving A x = b with the factors and the permutation: the residual of every equation is bounded by the
    backward errors of the decomposition and of the two substitutions. *)
Theorem C75_solve_dense : forall (A L0 P0 L U P : DenseR NumF64) cnt n a b x, 0 < n -> holds A n n a ->
  holds L0 n n (fun _ _ => n0) -> holds P0 n n (fun _ _ => n0) -> doubles2 n n a ->
  doolittle_dense (I := DenseI NumF64) A L0 P0 = Ok (L, U, P, cnt) ->
  length b = n -> doubles b -> (forall j, j < n -> finite (nth j b n0)) ->
  (let* pb := d_mulv P b in solve_lu L U pb) = Ok x -> (forall i, i < n -> finite (nth i x n0)) ->
  exists l u rt, holds L n n l /\ holds U n n u /\ Permutation rt (seq 0 n) /\
    (lu_usable n l u -> all_finite n u -> forall i, (i < n)%nat ->
      Rabs (rsum n (fun j => real (a (nth i rt 0%nat) j) * real (nth j x n0)) - real (nth (nth i rt 0%nat) b n0))
      <= rsum n (fun j => row_bound (n + 1) (lu_terms l u i j) (real (u j j)) * Rabs (real (nth j x n0)))
         + solve_bound n (lux_terms n l u x i) (slack n l u i))%R.
Proof.
  intros A L0 P0 L U P cnt n a b x Hn HA HL0 HP0 Da E Lb Db Fb Ex Fx.
  pose proof (dense_f A L0 P0 n a _ _ Hn HA HL0 HP0 Da (fun i j _ _ => eq_refl)) as H. rewrite E in H.
  exact (solve_all (M := DenseR NumF64) dense_reads permute_dense L U P cnt n a b x Hn H Lb Db Fb Ex Fx).
Qed.
Theorem C75_solve_sparse : forall (A L U P : SparseR NumF64) cnt n a b x, 0 < n -> holds A n n a -> doubles2 n n a ->
  doolittle_sparse (I := SparseI NumF64) A = Ok (L, U, P, cnt) ->
  length b = n -> doubles b -> (forall j, j < n -> finite (nth j b n0)) ->
  (let* pb := s_mulv P b in solve_lu L U pb) = Ok x -> (forall i, i < n -> finite (nth i x n0)) ->
  exists l u rt, holds L n n l /\ holds U n n u /\ Permutation rt (seq 0 n) /\
    (lu_usable n l u -> all_finite n u -> forall i, (i < n)%nat ->
      Rabs (rsum n (fun j => real (a (nth i rt 0%nat) j) * real (nth j x n0)) - real (nth (nth i rt 0%nat) b n0))
      <= rsum n (fun j => row_bound (n + 1) (lu_terms l u i j) (real (u j j)) * Rabs (real (nth j x n0)))
         + solve_bound n (lux_terms n l u x i) (slack n l u i))%R.
Proof.
  intros A L U P cnt n a b x Hn HA Da E Lb Db Fb Ex Fx.
  pose proof (sparse_f A n a Hn HA Da) as H. rewrite E in H.
  exact (solve_all (M := SparseR NumF64) sparse_reads permute_sparse L U P cnt n a b x Hn H Lb Db Fb Ex Fx).
Qed.
(** [BUG] U is not upper triangular on doubles: the eliminated entries are computed, not set to zero.  For
    ((49,1),(1,1)) the entry below the diagonal stays 2^-53, because 49 * (1/49) is not 1. *)
Theorem C75_upper_refuted :
  (let* A := d_of_list [[fz 49; fz 1]; [fz 1; fz 1]] in
   let* r := doolittle_dense (I := DenseI NumF64) A (d_fixed_new 2 2) (d_fixed_new 2 2) in
   d_at (snd (fst (fst r))) 1 0) = Ok (two_to (-53)) /\
  real (two_to (-53)) <> 0%R.
Proof.
  split; [vm_compute; reflexivity|]. cbn [real two_to]. apply Rmult_integral_contrapositive_currified.
  - apply not_0_IZR. discriminate.
  - apply powerRZ_NOR. lra.
Qed.
Definition fA : list (list NumF64) := [[fz 1; fz 2]; [fz 3; fz 4]].
Definition fAm : DenseI NumF64 := get d_default (d_of_list fA).
Definition check_finite (l : list NumF64) : bool := forallb (fun x => match (x : spec_float) with S754_zero _ | S754_finite _ _ _ => true | _ => false end) l.
Example C75_example :
  (d_of_list fA = Ok fAm /\ exists a, holds fAm 2 2 a /\ doubles2 2 2 a) /\
  (let* A := d_of_list fA in let* r := doolittle_dense (I := DenseI NumF64) A (d_fixed_new 2 2) (d_fixed_new 2 2) in
   let '(L, U, P, cnt) := r in let* pb := d_mulv P [fz 5; fz 6] in let* x := @solve_lu NumF64 (DenseR NumF64) L U pb in
   Ok (check_finite (dv L) && check_finite (dv U) && check_finite x, dv P, cnt)) = Ok (true, [fz 0; fz 1; fz 1; fz 0], 1).
Proof.
  split; [|vm_compute; reflexivity].
  split; [apply ok_get; vm_compute; reflexivity|]. exists (fun i j => nth j (nth i fA []) n0).
  split; [|intros i j Hi Hj; destruct i as [|[|i]]; try lia; destruct j as [|[|j]]; try lia; reflexivity].
  split; [reflexivity|]. split; [reflexivity|]. split; [reflexivity|].
  intros i j Hi Hj; destruct i as [|[|i]]; try lia; destruct j as [|[|j]]; try lia; vm_compute; reflexivity.
Qed.
