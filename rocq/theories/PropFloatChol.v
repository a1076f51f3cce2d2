(** C89: cholesky on doubles, backward error; C90: it succeeds on every matrix that is positive definite with a margin. *)
From Coq Require Import String ZArith Reals List Arith Bool SpecFloat Lia Lra.
From Verif Require Import Base BaseProofs Num NumInst Spec VectorModel SparseModel SparseSpec DenseModel DenseSpec MatI MatOps LUModel ExampleBase MatIProofs DenseProofs
  FloatSpec FloatLUSpec FloatDetSpec FloatCholSpec FloatProofs FloatResult FloatDet FloatChol FloatCholSafe PropFloat.
Import ListNotations.
Local Open Scope nat_scope.
Open Scope res_scope.

(** For every n x n matrix of doubles that is finite on and below the diagonal (L0 a zero matrix): cholesky throws NotPositiveDefinite or returns a lower
    triangular factor whose entries are finite, with a positive diagonal - only the last diagonal entry may be NaN -, and every entry of A on and below the diagonal
    differs from that of L L^T by at most ((1+2^-53)^(n+7) - 1) (|L||L^T|)_ij and an underflow term.  No overflow premise. *)
Theorem C89_dense : forall (A L0 : DenseI NumF64) n a, holds A n n a -> holds L0 n n (fun _ _ => n0) -> doubles2 n n a -> lower_finite n a ->
  post (cholesky A L0) (chol_float n a) (fun ex => ex = NotPositiveDefinite).
Proof. exact chol_dense_f. Qed.
Theorem C89_sparse : forall (A L0 : SparseI NumF64) n a, holds A n n a -> holds L0 n n (fun _ _ => n0) -> doubles2 n n a -> lower_finite n a ->
  post (cholesky A L0) (chol_float n a) (fun ex => ex = NotPositiveDefinite).
Proof. exact chol_sparse_f. Qed.

(** A symmetric matrix with entries of modulus at most 2^e such that every symmetric matrix within chol_error of it is positive definite: cholesky does not throw,
    the factor is finite with a positive diagonal and L L^T is within chol_error of A.  (So NotPositiveDefinite is only thrown for, and a NaN only returned for,
    a matrix that has an indefinite or semidefinite matrix within chol_error.) *)
Theorem C90_dense : forall (A L0 : DenseI NumF64) n a e, (Z.of_nat n <= 2 ^ 40)%Z -> (-1000 <= e <= 1000)%Z -> holds A n n a -> holds L0 n n (fun _ _ => n0) ->
  doubles2 n n a -> entries_bounded n e a -> (forall i j, i < n -> j < n -> real (a i j) = real (a j i)) -> safely_pd n (chol_error n e) a ->
  returns (cholesky A L0) (chol_success n (chol_error n e) a).
Proof. exact chol_dense_safe. Qed.
Theorem C90_sparse : forall (A L0 : SparseI NumF64) n a e, (Z.of_nat n <= 2 ^ 40)%Z -> (-1000 <= e <= 1000)%Z -> holds A n n a -> holds L0 n n (fun _ _ => n0) ->
  doubles2 n n a -> entries_bounded n e a -> (forall i j, i < n -> j < n -> real (a i j) = real (a j i)) -> safely_pd n (chol_error n e) a ->
  returns (cholesky A L0) (chol_success n (chol_error n e) a).
Proof. exact chol_sparse_safe. Qed.
(** In particular for symmetric matrices with a_ii > sum_(j <> i) |a_ij| + n chol_error. *)
Theorem C90_dominant : forall n a e, (forall i j, i < n -> j < n -> real (a i j) = real (a j i)) -> dominant_by n (chol_error n e) a -> safely_pd n (chol_error n e) a.
Proof. intros n a e. apply dominant_safe. apply chol_error_pos. Qed.
Theorem C90_dominant_dense : forall (A L0 : DenseI NumF64) n a e, (Z.of_nat n <= 2 ^ 40)%Z -> (-1000 <= e <= 1000)%Z -> holds A n n a -> holds L0 n n (fun _ _ => n0) ->
  doubles2 n n a -> entries_bounded n e a -> (forall i j, i < n -> j < n -> real (a i j) = real (a j i)) -> dominant_by n (chol_error n e) a ->
  returns (cholesky A L0) (chol_success n (chol_error n e) a).
Proof. intros. apply chol_dense_safe; auto. now apply C90_dominant. Qed.
Theorem C90_dominant_sparse : forall (A L0 : SparseI NumF64) n a e, (Z.of_nat n <= 2 ^ 40)%Z -> (-1000 <= e <= 1000)%Z -> holds A n n a -> holds L0 n n (fun _ _ => n0) ->
  doubles2 n n a -> entries_bounded n e a -> (forall i j, i < n -> j < n -> real (a i j) = real (a j i)) -> dominant_by n (chol_error n e) a ->
  returns (cholesky A L0) (chol_success n (chol_error n e) a).
Proof. intros. apply chol_sparse_safe; auto. now apply C90_dominant. Qed.

Definition hA : list (list NumF64) := [[fz 8; fz 1]; [fz 1; fz 8]].
Definition ha (i j : nat) : NumF64 := nth j (nth i hA []) n0.
Definition hAm : DenseI NumF64 := mkD (concat hA) 2 2.
Example C90_premises : holds hAm 2 2 ha /\ holds (mkD [n0; n0; n0; n0] 2 2 : DenseI NumF64) 2 2 (fun _ _ => n0) /\ doubles2 2 2 ha /\ lower_finite 2 ha /\ entries_bounded 2 3 ha /\
  (forall i j, i < 2 -> j < 2 -> real (ha i j) = real (ha j i)) /\ dominant_by 2 (chol_error 2 3) ha.
Proof.
  assert (R8 : real (fz 8) = 8%R) by (match goal with |- real (fz ?z) = _ => destruct (int_checked (fz z) z ltac:(vm_compute; reflexivity)) as (_ & _ & ->) end; reflexivity).
  assert (R1 : real (fz 1) = 1%R) by (match goal with |- real (fz ?z) = _ => destruct (int_checked (fz z) z ltac:(vm_compute; reflexivity)) as (_ & _ & ->) end; reflexivity).
  split; [|split; [|split; [|split; [|split; [|split]]]]].
  - split; [reflexivity|]. split; [reflexivity|]. split; [reflexivity|].
    intros i j Hi Hj; destruct i as [|[|i]]; try lia; destruct j as [|[|j]]; try lia; vm_compute; reflexivity.
  - split; [reflexivity|]. split; [reflexivity|]. split; [reflexivity|].
    intros i j Hi Hj; destruct i as [|[|i]]; try lia; destruct j as [|[|j]]; try lia; vm_compute; reflexivity.
  - intros i j Hi Hj; destruct i as [|[|i]]; try lia; destruct j as [|[|j]]; try lia; reflexivity.
  - intros i j Hij; destruct i as [|[|i]]; try lia; destruct j as [|[|j]]; try lia; exact I.
  - intros i j Hi Hj; destruct i as [|[|i]]; try lia; destruct j as [|[|j]]; try lia; (split; [exact I|]); unfold ha; cbn [nth hA]; rewrite ?R8, ?R1;
      apply Rabs_le; change (powerRZ 2 3) with (2 * (2 * (2 * 1)))%R; lra.
  - intros i j Hi Hj; destruct i as [|[|i]]; try lia; destruct j as [|[|j]]; try lia; reflexivity.
  - assert (B : (chol_error 2 3 <= 3)%R) by exact chol_error_example.
    intros i Hi; destruct i as [|[|i]]; try lia; cbn [rsum Nat.eqb]; unfold ha; cbn [nth hA]; rewrite ?R8, ?R1, Rabs_R1; change (INR 2) with 2%R; lra.
Qed.
Example C89_example :
  (let* A := d_of_list hA in let* L := cholesky (I := DenseI NumF64) A (d_fixed_new 2 2) in Ok (check_finite (dv L), nth 1 (dv L) n1)) = Ok (true, n0) /\
  (let* A := s_of_list hA in let* L0 := s_new 2 2 in let* L := cholesky (I := SparseI NumF64) A L0 in s_at L 0 1) = Ok n0 /\
  (let* A := d_of_list [[fz 1; fz 2]; [fz 2; fz 1]] in cholesky (I := DenseI NumF64) A (d_fixed_new 2 2)) = Throw NotPositiveDefinite /\
  (* the exceptional NaN *)
  (let* A := d_of_list [[fz 1; fz 1]; [fz 1; fz 1]] in let* L := cholesky (I := DenseI NumF64) A (d_fixed_new 2 2) in Ok (nth 3 (dv L) n0)) = Ok S754_nan.
Proof. repeat split; vm_compute; reflexivity. Qed.
