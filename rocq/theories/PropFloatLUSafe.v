(** C91: LU decomposition, determinant, linear systems and inverse on doubles succeed on matrices that stay nonsingular under perturbations of the size
    of the rounding errors. *)
From Coq Require Import ZArith Reals List Arith Bool SpecFloat Lia Lra Permutation.
From Flocq Require Import Core.
From Verif Require Import Base BaseProofs Num NumInst OrdField Spec VectorModel SparseModel SparseSpec DenseModel DenseSpec MatI MatOps LUModel DetSpec ExampleBase MatIProofs DenseProofs
  FloatSpec FloatLUSpec F64Flocq FloatProofs FloatResult FloatSolve FloatLU FloatLUSolve FloatDetSpec FloatDet FloatInv PropFloat PropFloatDet FloatLUSafeSpec FloatLUSafe.
Import ListNotations.
Local Open Scope nat_scope.
Open Scope res_scope.

(** The decomposition of a matrix with entries of modulus at most 2^e never throws Singular if no matrix within lu_error + 2^-52 of it is singular. *)
Theorem C91_dense : forall (A L0 P0 : DenseI NumF64) n e a, 0 < n -> holds A n n a -> holds L0 n n (fun _ _ => n0) -> holds P0 n n (fun _ _ => n0) ->
  doubles2 n n a -> (-1074 <= e)%Z -> (e + Z.of_nat n <= 1022)%Z -> entries_bounded n e a -> safely_nonsingular n (lu_margin n e) a ->
  returns (doolittle_dense A L0 P0) (lu_success n e a).
Proof.
  intros. eapply returns_mono; [apply (dense_safe A L0 P0 n e a); assumption|]. intros r. now apply safe_success.
Qed.
Theorem C91_sparse : forall (A : SparseI NumF64) n e a, 0 < n -> holds A n n a ->
  doubles2 n n a -> (-1074 <= e)%Z -> (e + Z.of_nat n <= 1022)%Z -> entries_bounded n e a -> safely_nonsingular n (lu_margin n e) a ->
  returns (doolittle_sparse A) (lu_success n e a).
Proof.
  intros. eapply returns_mono; [apply (sparse_safe A n e a); assumption|]. intros r. now apply safe_success.
Qed.

(** This holds if the matrix has an inverse Y with n (lu_error + 2^-52) ||Y|| < 1 (maximal row sum). *)
Theorem C91_condition : forall n e a y, real_inverse n a y -> (forall i, i < n -> (INR n * lu_margin n e * row_norm n y i < 1)%R) -> safely_nonsingular n (lu_margin n e) a.
Proof.
  intros n e a y Hy H. apply (inverse_safe n _ a y Hy); [|exact H]. unfold lu_margin. pose proof (margin_pos n e). lra.
Qed.

(** determinant() returns the determinant of a nonsingular matrix near the given one, up to rounding: it never takes the matrix for singular. *)
Definition det_near (n : nat) (e : Z) (a : nat -> nat -> NumF64) (d : NumF64) : Prop := double d /\
  ((Z.of_nat n * Z.max 0 (e + Z.of_nat n) <= 1023)%Z -> finite d) /\
  exists E, (forall i j, i < n -> j < n -> (Rabs (E i j) <= lu_error n e)%R) /\ det n (perturbed a E) <> 0%R /\
    (finite d -> (Rabs (real d - det n (perturbed a E)) <= det_rounding n e (det n (perturbed a E)))%R).
Lemma det_safe n e a d : safely_nonsingular n (lu_margin n e) a -> double d /\ float_det n e a d /\ ((Z.of_nat n * Z.max 0 (e + Z.of_nat n) <= 1023)%Z -> finite d) ->
  det_near n e a d.
Proof.
  intros NS (D & F & Fi). split; [exact D|]. split; [exact Fi|]. pose proof (margin_pos n e) as Mp. destruct F as [(E & HE & H)|(_ & E & c & Hc & HE & H)].
  - exists E. split; [exact HE|]. split; [|exact H]. apply NS. intros i j Hi Hj. unfold lu_margin. specialize (HE i j Hi Hj). lra.
  - exfalso. apply (NS E); [|exact H]. intros i j Hi Hj. specialize (HE i j Hi Hj). unfold lu_margin. destruct (j =? c); lra.
Qed.
Theorem C91_det_dense : forall (A : DenseI NumF64) n e a, 0 < n -> holds A n n a -> doubles2 n n a -> (-1074 <= e)%Z -> (e + Z.of_nat n <= 1022)%Z -> entries_bounded n e a ->
  safely_nonsingular n (lu_margin n e) a -> returns (det_dense A) (det_near n e a) /\ returns (det_fixed A) (det_near n e a).
Proof.
  intros A n e a Hn HA Da He Hen Ha NS.
  split; (eapply returns_mono; [first [apply (det_dense_f A n e a)|apply (det_fixed_f A n e a)]; assumption|]; intros d; now apply det_safe).
Qed.
Theorem C91_det_sparse : forall (A : SparseI NumF64) n e a, 0 < n -> holds A n n a -> doubles2 n n a -> (-1074 <= e)%Z -> (e + Z.of_nat n <= 1022)%Z -> entries_bounded n e a ->
  safely_nonsingular n (lu_margin n e) a -> returns (det_sparse A) (det_near n e a).
Proof. intros A n e a Hn HA Da He Hen Ha NS. eapply returns_mono; [apply (det_sparse_f A n e a); assumption|]. intros d. now apply det_safe. Qed.

(** A x = b by doolittle, P b and solve_lu never throws; with enough room the solution is finite, solves every equation up to solve_error and
    differs from the exact solution Y b by at most that times the row sums of the inverse Y. *)
Definition solved (n : nat) (e s : Z) (a : nat -> nat -> NumF64) (b x : list NumF64) : Prop := solves n e a b x /\
  (room n e s -> (forall j, j < n -> (Rabs (real (nth j b n0)) <= powerRZ 2 s)%R) -> solves_finite n e a (fun i => nth i b n0) (fun i => nth i x n0) /\
   forall y, real_inverse n a y -> forall i, i < n ->
     (Rabs (real (nth i x n0) - rsum n (fun k => y i k * real (nth k b n0))) <= row_norm n y i * solve_error n e (rsum n (fun j => Rabs (real (nth j x n0)))))%R).
Theorem C91_solve_dense : forall (A L0 P0 : DenseI NumF64) n e s a b, 0 < n -> holds A n n a -> holds L0 n n (fun _ _ => n0) -> holds P0 n n (fun _ _ => n0) ->
  doubles2 n n a -> (-1074 <= e)%Z -> (e + Z.of_nat n <= 1022)%Z -> entries_bounded n e a -> safely_nonsingular n (lu_margin n e) a ->
  length b = n -> doubles b -> (forall j, j < n -> finite (nth j b n0)) ->
  returns (let* r := doolittle_dense A L0 P0 in let '(L, U, P, _) := r in let* pb := d_mulv P b in solve_lu (M := DenseR NumF64) L U pb) (solved n e s a b).
Proof.
  intros A L0 P0 n e s a b Hn HA HL0 HP0 Da He Hen Ha NS Lb Db Fb.
  destruct (dense_safe A L0 P0 n e a Hn HA HL0 HP0 Da He Hen Ha NS) as ((((L, U), P), cnt) & -> & l & u & rt & HL & HU & HPm & G). cbn [bind].
  destruct (solve_all_safe (M := DenseR NumF64) dense_reads permute_dense n e a l u rt L U P Hn Hen G HL HU HPm b Lb Db Fb) as (x & E & Lx & Hx).
  exists x. split; [exact E|]. split; [split; assumption|]. intros Rm Bb.
  destruct (solve_safe (M := DenseR NumF64) dense_reads permute_dense n e s a l u rt L U P Hn Hen G HL HU HPm Rm b Lb Db) as (x' & E' & _ & H).
  { intros j Hj. split; [auto|]. rewrite bpow_powerRZ. now apply Bb. }
  rewrite E in E'. injection E' as <-. split; [exact H|]. intros y Hy i Hi. exact (forward_error n e a (fun i => nth i b n0) (fun i => nth i x n0) y Hy (proj2 H) i Hi).
Qed.
Theorem C91_solve_sparse : forall (A : SparseI NumF64) n e s a b, 0 < n -> holds A n n a ->
  doubles2 n n a -> (-1074 <= e)%Z -> (e + Z.of_nat n <= 1022)%Z -> entries_bounded n e a -> safely_nonsingular n (lu_margin n e) a ->
  length b = n -> doubles b -> (forall j, j < n -> finite (nth j b n0)) ->
  returns (let* r := doolittle_sparse A in let '(L, U, P, _) := r in let* pb := s_mulv P b in solve_lu (M := SparseR NumF64) L U pb) (solved n e s a b).
Proof.
  intros A n e s a b Hn HA Da He Hen Ha NS Lb Db Fb.
  destruct (sparse_safe A n e a Hn HA Da He Hen Ha NS) as ((((L, U), P), cnt) & -> & l & u & rt & HL & HU & HPm & G). cbn [bind].
  destruct (solve_all_safe (M := SparseR NumF64) sparse_reads permute_sparse n e a l u rt L U P Hn Hen G HL HU HPm b Lb Db Fb) as (x & E & Lx & Hx).
  exists x. split; [exact E|]. split; [split; assumption|]. intros Rm Bb.
  destruct (solve_safe (M := SparseR NumF64) sparse_reads permute_sparse n e s a l u rt L U P Hn Hen G HL HU HPm Rm b Lb Db) as (x' & E' & _ & H).
  { intros j Hj. split; [auto|]. rewrite bpow_powerRZ. now apply Bb. }
  rewrite E in E'. injection E' as <-. split; [exact H|]. intros y Hy i Hi. exact (forward_error n e a (fun i => nth i b n0) (fun i => nth i x n0) y Hy (proj2 H) i Hi).
Qed.

(** The inverse: all entries finite; every column solves A x = e_c up to solve_error. *)
Definition inverse_finite {I : MatI NumF64} n e a (X : I) : Prop := exists x, holds X n n x /\
  forall c, c < n -> solves_finite n e a (fun i => if i =? c then n1 else n0) (fun i => x i c).
Theorem C91_inverse_sparse : forall (A : SparseR NumF64) n e a, 0 < n -> holds A n n a ->
  doubles2 n n a -> (-1074 <= e)%Z -> (e + Z.of_nat n <= 1022)%Z -> entries_bounded n e a -> safely_nonsingular n (lu_margin n e) a -> room n e 0 ->
  returns (inverse_sparse A) (inverse_finite (I := SparseI NumF64) n e a).
Proof.
  intros A n e a Hn HA Da He Hen Ha NS Rm. unfold inverse_sparse.
  destruct (sparse_safe A n e a Hn HA Da He Hen Ha NS) as ((((L, U), P), cnt) & -> & l & u & rt & HL & HU & HPm & G). cbn [bind].
  exact (inverse_safe_f (M := SparseR NumF64) sparse_reads norm0 sparse_sets norm0_real norm0_finite permute_sparse n e 0 a l u rt L U P Hn Hen G HL HU HPm Rm eq_refl).
Qed.
Theorem C91_inverse_dense : forall (A L0 P0 : DenseR NumF64) n e a, 0 < n -> holds A n n a -> holds L0 n n (fun _ _ => n0) -> holds P0 n n (fun _ _ => n0) ->
  doubles2 n n a -> (-1074 <= e)%Z -> (e + Z.of_nat n <= 1022)%Z -> entries_bounded n e a -> safely_nonsingular n (lu_margin n e) a -> room n e 0 ->
  returns (let* r := doolittle_dense (I := DenseI NumF64) A L0 P0 in let '(L, U, P, _) := r in inverse3 (M := DenseR NumF64) L U P)
    (inverse_finite (I := DenseI NumF64) n e a).
Proof.
  intros A L0 P0 n e a Hn HA HL0 HP0 Da He Hen Ha NS Rm.
  destruct (dense_safe A L0 P0 n e a Hn HA HL0 HP0 Da He Hen Ha NS) as ((((L, U), P), cnt) & -> & l & u & rt & HL & HU & HPm & G). cbn [bind].
  exact (inverse_safe_f (M := DenseR NumF64) dense_reads (fun x => x) dense_sets (fun _ => eq_refl) (fun _ => conj (fun H => H) (fun H => H)) permute_dense
    n e 0 a l u rt L U P Hn Hen G HL HU HPm Rm eq_refl).
Qed.

(** [[1,2],[3,4]] of PropFloatDet: its inverse [[-2,1],[1.5,-0.5]] has row sums 3 and 2. *)
Definition gy (i j : nat) : R := nth j (nth i [[-2; 1]; [3 / 2; - (1 / 2)]] [])%R 0%R.
Lemma ga_real i j : i < 2 -> j < 2 -> real (ga i j) = IZR (nth j (nth i [[1; 2]; [3; 4]] []) 0)%Z.
Proof.
  intros Hi Hj. destruct i as [|[|i]]; try lia; destruct j as [|[|j]]; try lia; unfold ga; cbn [nth gA];
    match goal with |- real (fz ?z) = _ => destruct (int_checked (fz z) z ltac:(vm_compute; reflexivity)) as (_ & _ & ->); reflexivity end.
Qed.
Lemma ga_margin : (lu_margin 2 2 <= / 100)%R.
Proof.
  unfold lu_margin, lu_error, row_bound. change (2 + Z.of_nat 2)%Z with 4%Z. change (2 + 1) with 3. change (powerRZ 2 4) with (2 * (2 * (2 * (2 * 1))))%R.
  rewrite Rabs_pos_eq by lra. cbn [INR]. pose proof u64_pos as U. pose proof eta64_pos as V.
  assert (U2 : (u64 <= / 100000)%R).
  { rewrite u64_b. apply Rle_trans with (bpow radix2 (-20)); [apply bpow_le; lia|]. change (bpow radix2 (-20)) with (/ 1048576)%R. apply Rinv_le; lra. }
  assert (V2 : (eta64 <= / 100000)%R).
  { rewrite eta64_bpow. change (/ 2)%R with (bpow radix2 (-1)). rewrite <- bpow_plus. apply Rle_trans with (bpow radix2 (-20)); [apply bpow_le; lia|]. change (bpow radix2 (-20)) with (/ 1048576)%R. apply Rinv_le; lra. }
  assert (W2 : (powerRZ 2 (-52) <= / 100000)%R).
  { rewrite pivot_b. apply Rle_trans with (bpow radix2 (-20)); [apply bpow_le; lia|]. change (bpow radix2 (-20)) with (/ 1048576)%R. apply Rinv_le; lra. }
  assert (Q : (1 <= (1 + u64) ^ 3 <= 1 + 4 * u64)%R).
  { split; [apply pow_ge_1|]. cbn [pow]. assert (0 <= u64 * u64 <= u64 * / 100000)%R by (split; [apply Rmult_le_pos; lra|apply Rmult_le_compat_l; lra]).
    assert (u64 * u64 * u64 <= u64 * u64)%R by (rewrite <- (Rmult_1_r (u64 * u64)) at 2; apply Rmult_le_compat_l; lra). lra. }
  set (w := powerRZ 2 (-52)) in *. set (q := ((1 + u64) ^ 3)%R) in *. clearbody w q.
  assert ((1 + 1 + 1 + 2 * (2 * (2 * (2 * 1)))) * q * eta64 <= 20 * 2 * / 100000)%R.
  { apply Rmult_le_compat; try lra. }
  lra.
Qed.
Example C91_premises : 0 < 2 /\ holds gAm 2 2 ga /\ doubles2 2 2 ga /\ (-1074 <= 2)%Z /\ (2 + Z.of_nat 2 <= 1022)%Z /\ entries_bounded 2 2 ga /\
  real_inverse 2 ga gy /\ (forall i, i < 2 -> (INR 2 * lu_margin 2 2 * row_norm 2 gy i < 1)%R) /\ safely_nonsingular 2 (lu_margin 2 2) ga /\ room 2 2 0 /\ room 2 2 100.
Proof.
  destruct C87_premises as (H1 & H2 & H3 & H4 & H5 & H6 & _).
  assert (Y : real_inverse 2 ga gy).
  { intros i j Hi Hj. cbn [rsum]. rewrite !ga_real by lia.
    destruct i as [|[|i]]; try lia; destruct j as [|[|j]]; try lia; unfold gy; cbn [nth Nat.eqb]; lra. }
  assert (C : forall i, i < 2 -> (INR 2 * lu_margin 2 2 * row_norm 2 gy i < 1)%R).
  { intros i Hi. pose proof ga_margin as M. pose proof (margin_pos 2 2) as Mp. fold (lu_margin 2 2) in Mp.
    assert (Rn : (0 <= row_norm 2 gy i <= 3)%R).
    { unfold row_norm. cbn [rsum]. destruct i as [|[|i]]; try lia; unfold gy; cbn [nth]; split_Rabs; lra. }
    assert (M0 : (0 <= lu_margin 2 2)%R) by (unfold lu_margin; lra). cbn [INR]. set (w := lu_margin 2 2) in *. clearbody w. nra. }
  do 6 (split; [assumption|]). split; [exact Y|]. split; [exact C|]. split; [exact (C91_condition 2 2 ga gy Y C)|]. split; (split; [lia|cbn; lia]).
Qed.
Example C91_example :
  (let* A := d_of_list gA in let* r := doolittle_dense (I := DenseI NumF64) A (d_fixed_new 2 2) (d_fixed_new 2 2) in
   let '(L, U, P, _) := r in let* pb := d_mulv P [fz 5; fz 11] in let* x := solve_lu (M := DenseR NumF64) L U pb in Ok (check_finite x, length x)) = Ok (true, 2) /\
  (let* A := s_of_list gA in let* r := doolittle_sparse (I := SparseI NumF64) A in
   let '(L, U, P, _) := r in let* pb := s_mulv P [fz 5; fz 11] in let* x := solve_lu (M := SparseR NumF64) L U pb in Ok (check_finite x, length x)) = Ok (true, 2).
Proof. split; vm_compute; reflexivity. Qed.
