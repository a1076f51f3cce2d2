(** C87: determinant() on doubles; C88: linear systems and inverse() on doubles, with explicit constants. *)
From Coq Require Import String ZArith Reals List Arith Bool SpecFloat Lia Lra Permutation.
From Verif Require Import Base BaseProofs Num NumInst OrdField Spec VectorModel SparseModel SparseSpec DenseModel DenseSpec MatI MatOps LUModel DetSpec ExampleBase MatIProofs DenseProofs
  FloatSpec FloatLUSpec FloatProofs FloatResult FloatSolve FloatLU FloatLUSolve FloatDetSpec FloatDet FloatInv PropFloat.
Import ListNotations.
Local Open Scope nat_scope.
Open Scope res_scope.

(** For n x n matrices of finite doubles of modulus at most 2^e, 2^(e+n) <= 2^1022, determinant() returns a value d.  It is the exact determinant of a matrix
    a + E with |E_ij| <= lu_error, up to det_rounding (as long as the last product does not overflow), or it is 0 and some a + E with |E_ij| <= lu_error
    (2^-52 more in one column) is exactly singular.  If n * max(0, e+n) <= 1023, it does not overflow. *)
Theorem C87_dense : forall (A : DenseI NumF64) n e a, 0 < n -> holds A n n a -> doubles2 n n a -> (-1074 <= e)%Z -> (e + Z.of_nat n <= 1022)%Z -> entries_bounded n e a ->
  returns (det_dense A) (fun d => double d /\ float_det n e a d /\ ((Z.of_nat n * Z.max 0 (e + Z.of_nat n) <= 1023)%Z -> finite d)).
Proof. exact det_dense_f. Qed.
Theorem C87_fixed : forall (A : DenseI NumF64) n e a, 0 < n -> holds A n n a -> doubles2 n n a -> (-1074 <= e)%Z -> (e + Z.of_nat n <= 1022)%Z -> entries_bounded n e a ->
  returns (det_fixed A) (fun d => double d /\ float_det n e a d /\ ((Z.of_nat n * Z.max 0 (e + Z.of_nat n) <= 1023)%Z -> finite d)).
Proof. exact det_fixed_f. Qed.
Theorem C87_sparse : forall (A : SparseI NumF64) n e a, 0 < n -> holds A n n a -> doubles2 n n a -> (-1074 <= e)%Z -> (e + Z.of_nat n <= 1022)%Z -> entries_bounded n e a ->
  returns (det_sparse A) (fun d => double d /\ float_det n e a d /\ ((Z.of_nat n * Z.max 0 (e + Z.of_nat n) <= 1023)%Z -> finite d)).
Proof. exact det_sparse_f. Qed.

(** ** C75 without its premises: the factors of such a matrix are finite, the multipliers at most 1, the entries of U at most 2^(e+n). *)
Definition bounded_factors {I : MatI NumF64} (n : nat) (e : Z) (r : I * I * I * nat) : Prop := let '(L, U, P, cnt) := r in exists l u,
  holds L n n l /\ holds U n n u /\ lu_usable n l u /\
  forall i j, i < n -> j < n -> finite (l i j) /\ (Rabs (real (l i j)) <= 1)%R /\ finite (u i j) /\ (Rabs (real (u i j)) <= powerRZ 2 (e + Z.of_nat n))%R.
Lemma bounded_good {I : MatI NumF64} n e a (r : I * I * I * nat) : (e + Z.of_nat n <= 1022)%Z -> lu_good n e a r -> bounded_factors n e r.
Proof.
  destruct r as (((L, U), P), cnt). intros Hen (l & u & rt & HL & HU & _ & G). exists l, u. split; [exact HL|]. split; [exact HU|]. split.
  - split; [|split].
    + intros i j Hij. apply (gd_fl _ _ _ _ _ _ G); lia.
    + intros i j Hij. apply (gd_fu _ _ _ _ _ _ G); lia.
    + exact (good_pivots n e a l u rt Hen G).
  - intros i j Hi Hj. split; [apply (gd_fl _ _ _ _ _ _ G); auto|]. split; [apply (gd_l _ _ _ _ _ _ G); auto|]. split; [apply (gd_fu _ _ _ _ _ _ G); auto|apply (gd_u _ _ _ _ _ _ G); auto].
Qed.
Theorem C75_no_overflow_dense : forall (A L0 P0 : DenseI NumF64) n e a, 0 < n -> holds A n n a -> holds L0 n n (fun _ _ => n0) -> holds P0 n n (fun _ _ => n0) ->
  doubles2 n n a -> (-1074 <= e)%Z -> (e + Z.of_nat n <= 1022)%Z -> entries_bounded n e a ->
  post (doolittle_dense A L0 P0) (bounded_factors n e) (fun ex => ex = Singular).
Proof.
  intros. eapply post_mono; [apply (dense_good A L0 P0 n e a); assumption| |auto]. intros r. now apply bounded_good.
Qed.
Theorem C75_no_overflow_sparse : forall (A : SparseI NumF64) n e a, 0 < n -> holds A n n a ->
  doubles2 n n a -> (-1074 <= e)%Z -> (e + Z.of_nat n <= 1022)%Z -> entries_bounded n e a ->
  post (doolittle_sparse A) (bounded_factors n e) (fun ex => ex = Singular).
Proof.
  intros. eapply post_mono; [apply (sparse_good A n e a); assumption| |auto]. intros r. now apply bounded_good.
Qed.

(** ** C88.  A x = b by doolittle, P b and solve_lu: either Singular, or x solves every equation up to solve_error (if it does not overflow). *)
Definition solves n e a b (x : list NumF64) : Prop :=
  length x = n /\ ((forall i, i < n -> finite (nth i x n0)) -> residual n e a (fun i => nth i b n0) (fun i => nth i x n0)).
Theorem C88_solve_dense : forall (A L0 P0 : DenseI NumF64) n e a b, 0 < n -> holds A n n a -> holds L0 n n (fun _ _ => n0) -> holds P0 n n (fun _ _ => n0) ->
  doubles2 n n a -> (-1074 <= e)%Z -> (e + Z.of_nat n <= 1022)%Z -> entries_bounded n e a ->
  length b = n -> doubles b -> (forall j, j < n -> finite (nth j b n0)) ->
  post (let* r := doolittle_dense A L0 P0 in let '(L, U, P, _) := r in let* pb := d_mulv P b in solve_lu (M := DenseR NumF64) L U pb)
    (solves n e a b) (fun ex => ex = Singular).
Proof.
  intros A L0 P0 n e a b Hn HA HL0 HP0 Da He Hen Ha Lb Db Fb. apply post_bind.
  eapply post_mono; [apply (dense_good A L0 P0 n e a); assumption| |auto]. intros (((L, U), P), cnt) (l & u & rt & HL & HU & HPm & G).
  exact (solve_good dense_reads permute_dense n e a l u rt L U P Hn Hen G HL HU HPm b Lb Db Fb).
Qed.
Theorem C88_solve_sparse : forall (A : SparseI NumF64) n e a b, 0 < n -> holds A n n a ->
  doubles2 n n a -> (-1074 <= e)%Z -> (e + Z.of_nat n <= 1022)%Z -> entries_bounded n e a ->
  length b = n -> doubles b -> (forall j, j < n -> finite (nth j b n0)) ->
  post (let* r := doolittle_sparse A in let '(L, U, P, _) := r in let* pb := s_mulv P b in solve_lu (M := SparseR NumF64) L U pb)
    (solves n e a b) (fun ex => ex = Singular).
Proof.
  intros A n e a b Hn HA Da He Hen Ha Lb Db Fb. apply post_bind.
  eapply post_mono; [apply (sparse_good A n e a); assumption| |auto]. intros (((L, U), P), cnt) (l & u & rt & HL & HU & HPm & G).
  exact (solve_good sparse_reads permute_sparse n e a l u rt L U P Hn Hen G HL HU HPm b Lb Db Fb).
Qed.
(** The inverse: every column that does not overflow solves A x = e_c up to solve_error. *)
Definition right_inverse {I : MatI NumF64} n e a (X : I) : Prop := exists x, holds X n n x /\
  forall c, c < n -> (forall i, i < n -> finite (x i c)) -> residual n e a (fun i => if (i =? c) then n1 else n0) (fun i => x i c).
Theorem C88_inverse_sparse : forall (A : SparseR NumF64) n e a, 0 < n -> holds A n n a ->
  doubles2 n n a -> (-1074 <= e)%Z -> (e + Z.of_nat n <= 1022)%Z -> entries_bounded n e a ->
  post (inverse_sparse A) (right_inverse (I := SparseI NumF64) n e a) (fun ex => ex = Singular).
Proof.
  intros A n e a Hn HA Da He Hen Ha. apply post_bind.
  eapply post_mono; [apply (sparse_good A n e a); assumption| |auto]. intros (((L, U), P), cnt) (l & u & rt & HL & HU & HPm & G).
  exact (inverse3_f sparse_reads norm0 sparse_sets norm0_real norm0_finite permute_sparse n e a l u rt L U P Hn Hen G HL HU HPm).
Qed.
(** inverse(L,U,P) after a decomposition into matrices of zeros, as for the fixed-size and dense types (inverse(m) itself is wrong for dense matrices, C42). *)
Theorem C88_inverse_dense : forall (A L0 P0 : DenseR NumF64) n e a, 0 < n -> holds A n n a -> holds L0 n n (fun _ _ => n0) -> holds P0 n n (fun _ _ => n0) ->
  doubles2 n n a -> (-1074 <= e)%Z -> (e + Z.of_nat n <= 1022)%Z -> entries_bounded n e a ->
  post (let* r := doolittle_dense (I := DenseI NumF64) A L0 P0 in let '(L, U, P, _) := r in inverse3 (M := DenseR NumF64) L U P)
    (right_inverse (I := DenseI NumF64) n e a) (fun ex => ex = Singular).
Proof.
  intros A L0 P0 n e a Hn HA HL0 HP0 Da He Hen Ha. apply post_bind.
  eapply post_mono; [apply (dense_good A L0 P0 n e a); assumption| |auto]. intros (((L, U), P), cnt) (l & u & rt & HL & HU & HPm & G).
  exact (inverse3_f dense_reads (fun x => x) dense_sets (fun _ => eq_refl) (fun _ => conj (fun H => H) (fun H => H)) permute_dense n e a l u rt L U P Hn Hen G HL HU HPm).
Qed.

(** [[1,2],[3,4]]: entries at most 2^2; the determinant is computed as -2 and the inverse as below, with finite entries. *)
Definition gA : list (list NumF64) := [[fz 1; fz 2]; [fz 3; fz 4]].
Definition gAm : DenseI NumF64 := get d_default (d_of_list gA).
Definition ga (i j : nat) : NumF64 := nth j (nth i gA []) n0.
Example C87_premises : 0 < 2 /\ holds gAm 2 2 ga /\ doubles2 2 2 ga /\ (-1074 <= 2)%Z /\ (2 + Z.of_nat 2 <= 1022)%Z /\ entries_bounded 2 2 ga /\
  (Z.of_nat 2 * Z.max 0 (2 + Z.of_nat 2) <= 1023)%Z.
Proof.
  split; [lia|]. split; [|split; [|split; [lia|split; [cbn; lia|split; [|cbn; lia]]]]].
  - split; [reflexivity|]. split; [reflexivity|]. split; [reflexivity|].
    intros i j Hi Hj; destruct i as [|[|i]]; try lia; destruct j as [|[|j]]; try lia; vm_compute; reflexivity.
  - intros i j Hi Hj; destruct i as [|[|i]]; try lia; destruct j as [|[|j]]; try lia; reflexivity.
  - intros i j Hi Hj; destruct i as [|[|i]]; try lia; destruct j as [|[|j]]; try lia; (split; [exact I|]); unfold ga; cbn [nth gA]; apply Rabs_le;
      match goal with |- context[real (fz ?z)] => destruct (int_checked (fz z) z ltac:(vm_compute; reflexivity)) as (_ & _ & ->) end;
      change (powerRZ 2 2) with (2 * (2 * 1))%R; lra.
Qed.

Example C87_example :
  (let* A := d_of_list gA in det_dense A) = Ok (fz (-2)) /\
  (let* A := d_of_list gA in det_fixed A) = Ok (fz (-2)) /\
  (let* A := s_of_list gA in det_sparse A) = Ok (fz (-2)) /\
  (* a singular matrix: 0 *)
  (let* A := d_of_list [[fz 1; fz 2; fz 3]; [fz 2; fz 4; fz 6]; [fz 1; fz 2; fz 3]] in det_dense A) = Ok n0.
Proof. repeat split; vm_compute; reflexivity. Qed.
Example C88_example :
  (let* A := s_of_list gA in let* X := inverse_sparse (N := NumF64) A in
   let* l := s_row_entries X 0 in let* m := s_row_entries X 1 in Ok (check_finite (map snd (l ++ m)), length (l ++ m))) = Ok (true, 4) /\
  (let* A := d_of_list gA in let* r := doolittle_dense (I := DenseI NumF64) A (d_fixed_new 2 2) (d_fixed_new 2 2) in
   let '(L, U, P, _) := r in let* X := inverse3 (M := DenseR NumF64) L U P in Ok (check_finite (dv X), length (dv X))) = Ok (true, 4) /\
  (* the matrix of the singular example: the third pivot is tiny *)
  (let* A := s_of_list [[fz 1; fz 2; fz 3]; [fz 2; fz 4; fz 6]; [fz 1; fz 2; fz 4]] in inverse_sparse (N := NumF64) A) = Throw Singular.
Proof. repeat split; vm_compute; reflexivity. Qed.
