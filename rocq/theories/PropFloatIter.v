(** Property C80: Jacobi and SOR on doubles, what stopping by the tolerance guarantees.  Vocabulary: FloatSpec.v and
    FloatIterSpec.v ([step_bound eps] is about eps, [row_bound] and [relax_bound] are rounding terms of relative size
    about m 2^-53 for m operations). *)
From Coq Require Import ZArith Reals List Arith Bool SpecFloat Lia Lra.
From Verif Require Import Base BaseProofs Num NumInst Spec VectorModel SparseModel SparseSpec DenseModel DenseSpec
  MatI MatIProofs MatOps LUModel LUSolve IterModel ExampleBase FloatSpec FloatIterSpec FloatSolve FloatIter PropFloat.
Import ListNotations.
Local Open Scope nat_scope.
Open Scope res_scope.

(** ** Jacobi *)
(** A run that reports fewer than the allowed steps: x is the iterate of the step before (the result of the same call
    with one step less).  Unless the last update overflows, it is at most about eps in every component, and the residual of
    every equation is at most that times the off-diagonal row sum, plus rounding. *)
Theorem C80_jacobi : forall M, double_rows M -> forall (A : M) n a b x0 maxIter eps y it,
  holds A n n a -> length b = n -> length x0 = n -> (Z.of_nat n < 2 ^ 53)%Z ->
  doubles2 n n a -> all_finite n a -> doubles b -> doubles x0 ->
  double eps -> finite eps -> (Rabs (real eps) <= powerRZ 2 500)%R ->
  it_jacobi A b x0 maxIter eps = Ok (y, it) -> it < maxIter ->
  0 < it /\ exists x, it_jacobi A b x0 (it - 1) eps = Ok (x, it - 1) /\ length x = n /\ length y = n /\
    (tame n x y -> forall i, i < n ->
      (Rabs (real (nth i y n0) - real (nth i x n0)) <= step_bound (real eps))%R /\
      (residual n a b y i <= step_bound (real eps) * roff n i (fun j => Rabs (real (a i j)))
         + row_bound (nonzero_count n (a i) + 2)
             (Rabs (real (nth i b n0)) + roff n i (fun j => Rabs (real (a i j)) * (Rabs (real (nth j y n0)) + step_bound (real eps))))
             (real (a i i)))%R).
Proof.
  intros M HM A n a b x0 maxIter eps y it HA Hb L0 Hn Da Fa Db D0 De Fe He E Hit.
  destruct (jacobi_stop (dr_reads M HM) A n a b HA Hb Da Fa Db x0 maxIter eps y it L0 D0 Hn De Fe He E Hit) as (H0 & x & Ex & Lx & Ly & _ & _ & H).
  split; [exact H0|]. exists x. split; [exact Ex|]. split; [exact Lx|]. split; [exact Ly|]. intros [T1 T2]. exact (H T1 T2).
Qed.
(** Hence the error of the returned vector for a diagonally dominant matrix. *)
Theorem C80_jacobi_error : forall M, double_rows M -> forall (A : M) n a b x0 maxIter eps y it,
  holds A n n a -> length b = n -> length x0 = n -> (Z.of_nat n < 2 ^ 53)%Z ->
  doubles2 n n a -> all_finite n a -> doubles b -> doubles x0 ->
  double eps -> finite eps -> (Rabs (real eps) <= powerRZ 2 500)%R ->
  it_jacobi A b x0 maxIter eps = Ok (y, it) -> it < maxIter ->
  forall c d s B Y m z, (0 < c)%R -> dominant n a c -> exact_solution n a b z -> sized n a b y d s B Y m ->
  exists x, it_jacobi A b x0 (it - 1) eps = Ok (x, it - 1) /\
    (tame n x y -> forall i, i < n ->
      (Rabs (real (nth i y n0) - z i)
       <= (step_bound (real eps) * s + row_bound (m + 2) (B + s * (Y + step_bound (real eps))) d) / c)%R).
Proof.
  intros M HM A n a b x0 maxIter eps y it HA Hb L0 Hn Da Fa Db D0 De Fe He E Hit c d s B Y m z Hc Hd Hz HS.
  destruct (C80_jacobi M HM A n a b x0 maxIter eps y it HA Hb L0 Hn Da Fa Db D0 De Fe He E Hit) as (_ & x & Ex & _ & _ & H).
  exists x. split; [exact Ex|]. intros T. apply (dominant_error n a b y z c); auto. intros i Hi.
  eapply Rle_trans; [exact (proj2 (H T i Hi))|]. exact (sized_jacobi n a b y d s B Y m _ HS (step_nonneg _) i Hi).
Qed.

(** ** SOR *)
(** The same for SOR.  The bound on the residual needs a run of at least two sweeps, or weight 1. *)
Theorem C80_sor : forall M, double_rows M -> forall (A : M) n a b x0 w maxIter eps y it,
  holds A n n a -> length b = n -> length x0 = n -> (Z.of_nat n < 2 ^ 53)%Z ->
  doubles2 n n a -> all_finite n a -> doubles b -> doubles x0 -> double w ->
  double eps -> finite eps -> (Rabs (real eps) <= powerRZ 2 500)%R ->
  it_sor A b x0 w maxIter eps = Ok (y, it) -> it < maxIter ->
  0 < it /\ exists x, it_sor A b x0 w (it - 1) eps = Ok (x, it - 1) /\ length x = n /\ length y = n /\
    (tame n x y -> forall i, i < n ->
      (Rabs (real (nth i y n0) - real (nth i x n0)) <= step_bound (real eps))%R /\
      (1 < it \/ real w = 1%R ->
       (Rabs (real w) * residual n a b y i
        <= step_bound (real eps) * (Rabs (1 - real w) * Rabs (real (a i i)) + Rabs (real w) * rabove n i (fun j => Rabs (real (a i j))))
         + relax_bound (nonzero_count n (a i) + 4) (real w) (real (a i i)) (Rabs (real (nth i y n0)) + step_bound (real eps))
             (Rabs (real (nth i b n0)) + roff n i (fun j => Rabs (real (a i j)) * (Rabs (real (nth j y n0)) + step_bound (real eps)))))%R)).
Proof.
  intros M HM A n a b x0 w maxIter eps y it HA Hb L0 Hn Da Fa Db D0 Dw De Fe He E Hit.
  destruct (sor_stop (dr_reads M HM) A n a b HA Hb Da Fa Db w x0 maxIter eps y it L0 D0 Hn Dw De Fe He E Hit) as (H0 & x & Ex & Lx & Ly & _ & _ & H).
  split; [exact H0|]. exists x. split; [exact Ex|]. split; [exact Lx|]. split; [exact Ly|]. intros [T1 T2] i Hi. exact (proj2 (H T1 T2 i Hi)).
Qed.
Theorem C80_sor_error : forall M, double_rows M -> forall (A : M) n a b x0 w maxIter eps y it,
  holds A n n a -> length b = n -> length x0 = n -> (Z.of_nat n < 2 ^ 53)%Z ->
  doubles2 n n a -> all_finite n a -> doubles b -> doubles x0 -> double w ->
  double eps -> finite eps -> (Rabs (real eps) <= powerRZ 2 500)%R ->
  it_sor A b x0 w maxIter eps = Ok (y, it) -> it < maxIter -> 1 < it \/ real w = 1%R -> real w <> 0%R ->
  forall c d s B Y m z, (0 < c)%R -> dominant n a c -> exact_solution n a b z -> sized n a b y d s B Y m ->
  exists x, it_sor A b x0 w (it - 1) eps = Ok (x, it - 1) /\
    (tame n x y -> forall i, i < n ->
      (Rabs (real (nth i y n0) - z i)
       <= (step_bound (real eps) * (Rabs (1 - real w) * d + Rabs (real w) * s)
           + relax_bound (m + 4) (real w) d (Y + step_bound (real eps)) (B + s * (Y + step_bound (real eps)))) / Rabs (real w) / c)%R).
Proof.
  intros M HM A n a b x0 w maxIter eps y it HA Hb L0 Hn Da Fa Db D0 Dw De Fe He E Hit Hw W0 c d s B Y m z Hc Hd Hz HS.
  destruct (C80_sor M HM A n a b x0 w maxIter eps y it HA Hb L0 Hn Da Fa Db D0 Dw De Fe He E Hit) as (_ & x & Ex & _ & _ & H).
  exists x. split; [exact Ex|]. intros T. apply (dominant_error n a b y z c); auto. intros i Hi.
  assert (P : (0 < Rabs (real w))%R) by now apply Rabs_pos_lt.
  apply Rmult_le_reg_l with (Rabs (real w)); auto.
  eapply Rle_trans; [exact (proj2 (H T i Hi) Hw)|]. eapply Rle_trans; [exact (sized_sor n a b y d s B Y m _ HS (step_nonneg _) (real w) i Hi)|].
  right. field. lra.
Qed.

(** ** Where the guards are needed *)
Definition half : NumF64 := (fz 1 / fz 2)%num.
Definition fD : DenseR NumF64 := get d_default (d_of_list [[fz 1; half]; [half; fz 1]]).
(** [BUG] An update whose square overflows counts as converged: from the start (2^600, 2^600), Jacobi for ((1,1/2),(1/2,1)) y = 0 stops
    after one of 1000 allowed steps with (-2^599, -2^599). *)
Theorem C80_overflow_refuted :
  (let* r := it_jacobi fD [fz 0; fz 0] [two_to 600; two_to 600] 1000 (two_to (-20)) in
   Ok (match r with ([p; q], k) => neqb p (- two_to 599)%num && neqb q (- two_to 599)%num && (k =? 1) | _ => false end)) = Ok true.
Proof. vm_compute. reflexivity. Qed.
(** A zero on the diagonal and the first sweep of SOR: C45_zero_diagonal_refuted, C46_first_sweep_refuted. *)

(** ** Examples *)
(** ((4,-1),(-1,4)) y = (2,7): Jacobi and SOR with weight 9/8 stop by themselves, with finite iterates. *)
Definition fE : DenseR NumF64 := get d_default (d_of_list [[fz 4; fz (-1)]; [fz (-1); fz 4]]).
Example C80_example :
  (exists a, holds fE 2 2 a /\ doubles2 2 2 a /\ all_finite 2 a /\ dominant 2 a 3) /\
  (let* r := it_jacobi fE [fz 2; fz 7] [fz 0; fz 0] 100 (two_to (-20)) in
   let* r' := it_jacobi fE [fz 2; fz 7] [fz 0; fz 0] (snd r - 1) (two_to (-20)) in
   Ok (snd r, snd r', forallb (fun x : NumF64 => nleb (nabs x) (fz 3)) (fst r ++ fst r'))) = Ok (12, 11, true) /\
  (let* r := it_sor fE [fz 2; fz 7] [fz 0; fz 0] (fz 9 / fz 8)%num 100 (two_to (-20)) in
   let* r' := it_sor fE [fz 2; fz 7] [fz 0; fz 0] (fz 9 / fz 8)%num (snd r - 1) (two_to (-20)) in
   Ok (snd r, snd r', forallb (fun x : NumF64 => nleb (nabs x) (fz 3)) (fst r ++ fst r'))) = Ok (9, 8, true).
Proof.
  split; [|split; vm_compute; reflexivity].
  exists (fun i j => nth j (nth i [[fz 4; fz (-1)]; [fz (-1); fz 4]] []) n0).
  split; [|split; [|split]].
  - split; [reflexivity|]. split; [reflexivity|]. split; [reflexivity|].
    intros i j Hi Hj; destruct i as [|[|i]]; try lia; destruct j as [|[|j]]; try lia; vm_compute; reflexivity.
  - intros i j Hi Hj; destruct i as [|[|i]]; try lia; destruct j as [|[|j]]; try lia; (exact I || reflexivity).
  - intros i j Hi Hj; destruct i as [|[|i]]; try lia; destruct j as [|[|j]]; try lia; (exact I || reflexivity).
  - assert (R4 : real (fz 4) = 4%R) by (apply (int_checked (fz 4) 4); reflexivity).
    assert (Rm : real (fz (-1)) = (-1)%R) by (apply (int_checked (fz (-1)) (-1)); reflexivity).
    intros i Hi. destruct i as [|[|i]]; try lia; unfold roff; cbn [rsum nth Nat.eqb]; rewrite R4, Rm; rewrite (Rabs_pos_eq 4) by lra;
      rewrite (Rabs_left (-1)) by lra; lra.
Qed.
