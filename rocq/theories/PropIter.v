(** Properties C43-C46: conjugate gradients, Jacobi and SOR.  The results are pairs of the returned vector and *it_stat. *)
From Coq Require Import List Arith Bool ZArith QArith Qcanon Lia Reals Lra Permutation.
From Verif Require Import Base BaseProofs Num NumInst NumEps OrdField Spec SpecProofs VectorModel SparseModel SparseSpec SparsePropProofs
  DenseModel DenseSpec DenseProofs DensePropProofs MatI MatIProofs MatOps MatOpsProofs UtilsSpec UtilsInst ExampleBase PropConstruct OrderProofs
  DetSpec LUModel LUSolve CholProofs PropLU CGMath IterModel CGProofs CGResult IterProofs IterResult LinAlg SorConv SorBlock SorInst JacConv.
Import ListNotations.
Local Open Scope nat_scope.
Open Scope res_scope.

(** [residual2 n a b x] is |b - A x|^2; [solves n a x b] is A x = b; [energy n a s x] is (x-s)^T A (x-s);
    [symmetric2], [pos_def] are symmetry and positive definiteness of the table. *)

(** ** C43.  Residual certificate *)
(** In exact arithmetic: if the iteration ends before maxIter the returned vector has residual below eps; *)
Theorem C43_certificate (N : Num) (HO : OrdFieldLaws N) : forall M, library_ops N M -> forall (A C : M) n a c b x0 maxIter eps,
  holds A n n a -> holds C n n c -> length b = n -> length x0 = n ->
  returns (cg A b x0 maxIter eps) (fun r => length (fst r) = n /\ 1 <= snd r <= Nat.max 1 maxIter /\
    (snd r < maxIter -> nltb (residual2 n a b (fst r)) (eps * eps)%num = true)) /\
  returns (pcg A b C x0 maxIter eps) (fun r => length (fst r) = n /\ 1 <= snd r <= Nat.max 1 maxIter /\
    (snd r < maxIter -> nltb (residual2 n a b (fst r)) (eps * eps)%num = true)).
Proof.
  intros M HM A C n a c b x0 maxIter eps HA HC Hb Hx. pose proof (lo_laws _ _ HM) as HL. split.
  - destruct (cg_cert HO HL A n a b x0 HA Hb Hx maxIter eps) as (x & it & E & H1 & H2 & H3 & H4). exists (x, it). cbn. auto.
  - destruct (pcg_cert HO HL A C n a c b x0 HA Hb Hx HC maxIter eps) as (x & it & E & H1 & H2 & H3 & H4). exists (x, it). cbn. auto.
Qed.
Theorem C43_bad_shapes (N : Num) (HF : FieldLaws N) : forall M, library_ops N M -> forall (A C : M) (b x0 : list N) maxIter eps, mi_ok A ->
  (mi_rows A <> mi_cols A -> cg A b x0 maxIter eps = Throw NotSquare) /\
  (mi_rows A = mi_cols A -> length x0 <> mi_cols A -> cg A b x0 maxIter eps = Throw MatrixMulMismatch) /\
  (mi_rows A = mi_cols A -> length x0 = mi_cols A -> length b <> mi_rows A -> cg A b x0 maxIter eps = Throw VectorSizeMismatch) /\
  (mi_rows A <> mi_cols A \/ mi_rows C <> mi_cols C -> pcg A b C x0 maxIter eps = Throw NotSquare) /\
  (mi_rows A = mi_cols A -> mi_rows C = mi_cols C -> mi_rows A <> mi_rows C -> pcg A b C x0 maxIter eps = Throw MatrixSizeMismatch).
Proof.
  intros M HM A C b x0 maxIter eps Hok. pose proof (lo_laws _ _ HM) as HL.
  destruct (cg_bad HL A b x0 maxIter eps Hok) as (H1 & H2 & H3). split; auto. split; auto. split; auto. exact (pcg_bad A C b x0 maxIter eps).
Qed.
(** [BUG] with maxIter = 0 the count reported is 1, although nothing was done; *)
Theorem C43_count_refuted (N : Num) (HO : OrdFieldLaws N) : forall M, library_ops N M -> forall (A : M) n a b x0 eps,
  holds A n n a -> length b = n -> length x0 = n -> cg A b x0 0 eps = Ok (x0, 1).
Proof.
  intros M HM A n a b x0 eps HA Hb Hx. pose proof (lo_laws _ _ HM) as HL.
  destruct (cg_run HL A n a HA b x0 0 eps Hb Hx) as (x & it & E & [(_ & -> & ->)|(m & (H & _) & _)]); [|lia].
  rewrite E. cbn [cg_start sx]. now rewrite <- (V_self x0 n n0 Hx).
Qed.
(** [BUG] started at the exact solution, both divide 0 by 0: with doubles NaN comes back, after maxIter steps. *)
Theorem C43_exact_start_refuted :
  (let* A := d_of_list ([[fz 2; fz 0]; [fz 0; fz 4]] : list (list NumF64)) in
   cg (M := DenseOps NumF64) A [fz 2; fz 4] [fz 1; fz 1] 5 (fz 1)) = Ok ([SpecFloat.S754_nan; SpecFloat.S754_nan], 5) /\
  (let* A := d_of_list ([[fz 2; fz 0]; [fz 0; fz 4]] : list (list NumF64)) in
   let* C := d_of_list ([[fz 1; fz 0]; [fz 0; fz 1]] : list (list NumF64)) in
   pcg (M := DenseOps NumF64) A [fz 2; fz 4] C [fz 1; fz 1] 5 (fz 1)) = Ok ([SpecFloat.S754_nan; SpecFloat.S754_nan], 5).
Proof. split; vm_compute; reflexivity. Qed.
(** Two steps suffice for a 2 x 2 system. *)
Definition tol : Qe := Qcanon.Q2Qc (1 # 1000).
Definition ex43 : list (list Qe) := [[qz 4; qz 1]; [qz 1; qz 3]].
Example C43_example : (let* A := d_of_list ex43 in let* r := cg (M := DenseOps Qe) A [qz 1; qz 2] [qz 2; qz 1] 10 tol in
   Ok (show (fst r), snd r)) = Ok ([1 # 11; 7 # 11]%Q, 2).
Proof. vm_compute. reflexivity. Qed.

(** ** C44.  Finite termination *)
(** pcg: A and C symmetric positive definite, start not already a solution, at least n iterations allowed. *)
Theorem C44_pcg (N : Num) (HO : OrdFieldLaws N) : forall M, library_ops N M -> forall (A C : M) n a c b x0,
  holds A n n a -> holds C n n c -> length b = n -> length x0 = n ->
  symmetric2 n a -> pos_def n a -> symmetric2 n c -> pos_def n c -> ~ solves n a x0 b ->
  (forall maxIter eps, eps <> n0 -> n <= maxIter -> exists x it, pcg A b C x0 maxIter eps = Ok (x, it) /\
     length x = n /\ it <= n /\ nltb (residual2 n a b x) (eps * eps)%num = true) /\
  exists e0, nltb n0 e0 = true /\ forall maxIter eps, eps <> n0 -> nleb (eps * eps)%num e0 = true -> n <= maxIter ->
    exists x it, pcg A b C x0 maxIter eps = Ok (x, it) /\ length x = n /\ it <= n /\ solves n a x b.
Proof.
  intros M HM A C n a c b x0 HA HC Hb Hx. pose proof (lo_laws _ _ HM) as HL. exact (pcg_term HO HL A C n a c b x0 HA Hb Hx HC).
Qed.
(** cg: only for systems with at most two unknowns ... *)
Theorem C44_cg_partial (N : Num) (HO : OrdFieldLaws N) : forall M, library_ops N M -> forall (A : M) n a b x0, n <= 2 ->
  holds A n n a -> length b = n -> length x0 = n -> symmetric2 n a -> pos_def n a -> ~ solves n a x0 b ->
  (forall maxIter eps, eps <> n0 -> n <= maxIter -> exists x it, cg A b x0 maxIter eps = Ok (x, it) /\
     length x = n /\ it <= n /\ nltb (residual2 n a b x) (eps * eps)%num = true) /\
  exists e0, nltb n0 e0 = true /\ forall maxIter eps, eps <> n0 -> nleb (eps * eps)%num e0 = true -> n <= maxIter ->
    exists x it, cg A b x0 maxIter eps = Ok (x, it) /\ length x = n /\ it <= n /\ solves n a x b.
Proof.
  intros M HM A n a b x0. pose proof (lo_laws _ _ HM) as HL. exact (cg_term2 HO HL A n a b x0).
Qed.
(** ... [BUG] the new direction is l + bk*r instead of l + bk*p.  For diag(1,2,4) and b = (1,1,1) three steps from 0 (also
    six) do not solve the system, pcg with C = 1 does it in three. *)
Definition ex44 : list (list Qe) := [[qz 1; qz 0; qz 0]; [qz 0; qz 2; qz 0]; [qz 0; qz 0; qz 4]].
Definition ex44a (i j : nat) : Qe := if i =? j then nth i [qz 1; qz 2; qz 4] (qz 0) else qz 0.
Theorem C44_cg_refuted :
  (let* A := d_of_list ex44 in let* r := cg (M := DenseOps Qe) A [qz 1; qz 1; qz 1] [qz 0; qz 0; qz 0] 3 tol in
   Ok (snd r, nltb (residual2 3 ex44a [qz 1; qz 1; qz 1] (fst r)) (tol * tol)%num)) = Ok (3, false) /\
  (let* A := d_of_list ex44 in let* r := cg (M := DenseOps Qe) A [qz 1; qz 1; qz 1] [qz 0; qz 0; qz 0] 6 tol in
   Ok (snd r, nltb (residual2 3 ex44a [qz 1; qz 1; qz 1] (fst r)) (tol * tol)%num)) = Ok (6, false) /\
  (let* A := d_of_list ex44 in let* C := d_of_list ([[qz 1; qz 0; qz 0]; [qz 0; qz 1; qz 0]; [qz 0; qz 0; qz 1]] : list (list Qe)) in
   let* r := pcg (M := DenseOps Qe) A [qz 1; qz 1; qz 1] C [qz 0; qz 0; qz 0] 6 tol in
   Ok (show (fst r), snd r)) = Ok ([1; 1 # 2; 1 # 4]%Q, 3).
Proof. split; [|split]; vm_compute; reflexivity. Qed.
(** CG::jacobi stores the reciprocal diagonal, or throws when a diagonal entry is not above epsilon ... *)
Theorem C44_jacobi_preconditioner (N : Num) (HF : FieldLaws N) : forall M, library_ops N M -> forall (A C : M),
  (forall n a c, holds A n n a -> holds C n n c ->
     post (cg_jacobi A C) (fun C' => (forall i, i < n -> tiny (a i i) = false) /\
        holds C' n n (fun i j => if i =? j then (n1 / a i i)%num else c i j))
      (fun e => e = Singular /\ exists i, i < n /\ tiny (a i i) = true)) /\
  (mi_rows A <> mi_cols A \/ mi_rows C <> mi_cols C -> cg_jacobi A C = Throw NotSquare) /\
  (mi_rows A = mi_cols A -> mi_rows C = mi_cols C -> mi_rows A <> mi_rows C -> cg_jacobi A C = Throw MatrixSizeMismatch).
Proof.
  intros M HM A C. pose proof (lo_laws _ _ HM) as HL. split; [intros n a c; exact (jac_ok HL A C n a c)|exact (jac_bad A C)].
Qed.
(** ... and on a zero matrix C it gives a preconditioner with which pcg terminates. *)
Theorem C44_jacobi_pcg (N : Num) (HO : OrdFieldLaws N) : forall M, library_ops N M -> forall (A C C' : M) n a b x0,
  holds A n n a -> holds C n n (fun _ _ => n0) -> length b = n -> length x0 = n ->
  symmetric2 n a -> pos_def n a -> ~ solves n a x0 b -> cg_jacobi A C = Ok C' ->
  exists e0, nltb n0 e0 = true /\ forall maxIter eps, eps <> n0 -> nleb (eps * eps)%num e0 = true -> n <= maxIter ->
    exists x it, pcg A b C' x0 maxIter eps = Ok (x, it) /\ length x = n /\ it <= n /\ solves n a x b.
Proof.
  intros M HM A C C' n a b x0 HA HC Hb Hx Sa Pa H0 E. pose proof (lo_laws _ _ HM) as HL.
  pose proof (jac_ok HL A C n a _ HA HC) as H. rewrite E in H. destruct H as (_ & H).
  destruct (diag_pos_def HO n (fun i => (n1 / a i i)%num) (fun i j => if i =? j then (n1 / a i i)%num else n0)) as [Sc Pc]; auto.
  { intros i Hi. apply (olt_0_inv HO). now apply (pos_def_diag HO n a i). }
  exact (proj2 (pcg_term HO HL A C' n a _ b x0 HA Hb Hx H Sa Pa Sc Pc H0)).
Qed.
Lemma ex44_spd : symmetric2 3 ex44a /\ pos_def 3 ex44a.
Proof.
  apply (diag_pos_def Qe_ord 3 (fun i => nth i [qz 1; qz 2; qz 4] (qz 0))); [reflexivity|].
  intros [|[|[|i]]] Hi; try lia; vm_compute; reflexivity.
Qed.
Example C44_example : exists A : DenseOps Qe, d_of_list ex44 = Ok A /\ holds (I := DenseI Qe) A 3 3 ex44a /\ symmetric2 3 ex44a /\ pos_def 3 ex44a /\
  ~ solves 3 ex44a [qz 0; qz 0; qz 0] [qz 1; qz 1; qz 1].
Proof.
  destruct (of_list_ok (N := Qe) ex44) as (A & E & H); [discriminate|vm_compute; lia|]. exists A. split; auto. split.
  - eapply holds_ext; [exact H|]. intros [|[|[|i]]] [|[|[|j]]] Hi Hj; try (vm_compute in Hi; lia); try (vm_compute in Hj; lia); reflexivity.
  - split; [apply ex44_spd|]. split; [apply ex44_spd|]. intros Hs. specialize (Hs 0 ltac:(lia)). vm_compute in Hs. discriminate Hs.
Qed.

(** ** C45.  Jacobi iteration *)
(** [offsum n i f] is the sum of f over the columns other than i, [dist2 n x y] is |y - x|^2;
    [run_ends n X maxIter e it]: it is the first count with |X it - X (it-1)|^2 <= e, or maxIter if there is none. *)
Theorem C45_run (N : Num) (HO : OrdFieldLaws N) : forall M, library_rows N M -> forall (A : M) n a b x0 maxIter eps,
  holds A n n a -> length b = n -> length x0 = n -> exists X it,
  it_jacobi A b x0 maxIter eps = Ok (map (X it) (seq 0 n), it) /\
  (forall i, i < n -> X 0 i = nth i x0 n0) /\
  (forall k i, i < n -> X (S k) i = (nth i b n0 - offsum n i (fun j => a i j * X k j)) / a i i)%num /\
  run_ends n X maxIter (eps * eps)%num it.
Proof. intros M HM A n a b x0 maxIter eps HA Hb Hx. apply lr_laws in HM as [HR _]. exact (jacobi_run HO HR A n a b x0 HA Hb Hx maxIter eps). Qed.
Theorem C45_fixed_point (N : Num) (HO : OrdFieldLaws N) : forall M, library_rows N M -> forall (A : M) n a b x0 maxIter eps,
  holds A n n a -> length b = n -> length x0 = n -> 0 < maxIter -> (forall i, i < n -> a i i <> n0) ->
  solves n a x0 b -> it_jacobi A b x0 maxIter eps = Ok (x0, 1).
Proof. intros M HM A n a b x0 maxIter eps HA Hb Hx. apply lr_laws in HM as [HR _]. exact (jacobi_fixed HO HR A n a b x0 HA Hb Hx maxIter eps). Qed.
(** Stopping by tolerance: the last update is below eps, and it is the scaled residual of the previous iterate. *)
Theorem C45_certificate (N : Num) (HO : OrdFieldLaws N) : forall M, library_rows N M -> forall (A : M) n a b x0 maxIter eps,
  holds A n n a -> length b = n -> length x0 = n -> (forall i, i < n -> a i i <> n0) ->
  exists y it, it_jacobi A b x0 maxIter eps = Ok (y, it) /\ length y = n /\ it <= maxIter /\
  (it < maxIter -> exists x : list N, length x = n /\
     nleb (dist2 n (fun i => nth i x n0) (fun i => nth i y n0)) (eps * eps)%num = true /\
     forall i, i < n -> (nth i b n0 - mulvec n a (fun j => nth j x n0) i = a i i * (nth i y n0 - nth i x n0))%num).
Proof. intros M HM A n a b x0 maxIter eps HA Hb Hx. apply lr_laws in HM as [HR _]. exact (jacobi_cert HO HR A n a b x0 HA Hb Hx maxIter eps). Qed.
(** Diagonally dominant systems: each step shrinks the error by the dominance factor q. *)
Theorem C45_convergence (N : Num) (HO : OrdFieldLaws N) : forall M, library_rows N M -> forall (A : M) n a b x0 q s d maxIter eps,
  holds A n n a -> length b = n -> length x0 = n -> (forall i, i < n -> a i i <> n0) ->
  (forall i, i < n -> nleb (offsum n i (fun j => nabs (a i j))) (q * nabs (a i i))%num = true) -> nleb n0 q = true -> solves n a s b ->
  (forall i, i < n -> nleb (nabs (nth i x0 n0 - nth i s n0)%num) d = true) ->
  exists y it, it_jacobi A b x0 maxIter eps = Ok (y, it) /\ it <= maxIter /\
    forall i, i < n -> nleb (nabs (nth i y n0 - nth i s n0)%num) (qpow q it * d)%num = true.
Proof. intros M HM A n a b x0 q s d maxIter eps HA Hb Hx. apply lr_laws in HM as [HR _]. exact (jacobi_contraction HO HR A n a b x0 HA Hb Hx q s d maxIter eps). Qed.
(** Strictly dominant systems, q < 1.  A stop by tolerance is an error bound: (1 - q) |y_i - s_i| <= q eps.  And it stops
    in time: one sweep after the first K with n (2 q^K d)^2 <= eps^2, where d bounds the error of the start. *)
Theorem C45_stop (N : Num) (HO : OrdFieldLaws N) : forall M, library_rows N M -> forall (A : M) n a b x0 q s d maxIter eps,
  holds A n n a -> length b = n -> length x0 = n -> (forall i, i < n -> a i i <> n0) ->
  (forall i, i < n -> nleb (offsum n i (fun j => nabs (a i j))) (q * nabs (a i i))%num = true) -> nleb n0 q = true -> nltb q n1 = true ->
  solves n a s b -> nleb n0 d = true -> (forall i, i < n -> nleb (nabs (nth i x0 n0 - nth i s n0)%num) d = true) ->
  exists y it, it_jacobi A b x0 maxIter eps = Ok (y, it) /\ length y = n /\ it <= maxIter /\
    (it < maxIter -> forall i, i < n -> nleb ((n1 - q) * nabs (nth i y n0 - nth i s n0))%num (q * nabs eps)%num = true) /\
    (forall K, nleb (bigsum n (fun _ => n1) * ((n1 + n1) * (qpow q K * d) * ((n1 + n1) * (qpow q K * d))))%num (eps * eps)%num = true -> it <= S K).
Proof. intros M HM A n a b x0 q s d maxIter eps HA Hb Hx. apply lr_laws in HM as [HR _]. exact (jac_stops HO HR A n a b x0 HA Hb Hx q d s eps maxIter). Qed.
(** So, both methods: with a tolerance that is not 0 and enough iterations allowed they end by themselves, near the solution. *)
Theorem C45_terminates (N : Num) (HO : OrdFieldLaws N) (HN : NatLaws N) : archimedean N ->
  forall M, library_rows N M -> forall (A : M) n a b x0 q s eps,
  holds A n n a -> length b = n -> length x0 = n -> (forall i, i < n -> a i i <> n0) ->
  (forall i, i < n -> nleb (offsum n i (fun j => nabs (a i j))) (q * nabs (a i i))%num = true) -> nleb n0 q = true -> nltb q n1 = true ->
  solves n a s b -> eps <> n0 -> exists K, forall maxIter, K < maxIter ->
    (exists y it, it_jacobi A b x0 maxIter eps = Ok (y, it) /\ it <= K /\
      forall i, i < n -> nleb ((n1 - q) * nabs (nth i y n0 - nth i s n0))%num (q * nabs eps)%num = true) /\
    (exists y it, it_sor A b x0 n1 maxIter eps = Ok (y, it) /\ it <= K /\
      forall i, i < n -> nleb ((n1 - q) * nabs (nth i y n0 - nth i s n0))%num (q * nabs eps)%num = true).
Proof.
  intros HAr M HM A n a b x0 q s eps HA Hb Hx. apply lr_laws in HM as [HR _]. exact (both_terminate HO HR A n a b x0 HA Hb Hx HN HAr q s eps).
Qed.
(** For every number type, also IEEE doubles: shape errors are exceptions, and otherwise a vector comes back after at most
    maxIter sweeps or MatrixHasZeroInDiagException is thrown; nothing aborts. *)
Theorem C45_bad_shapes (N : Num) : forall (M : RowMat N) (A : M) (b x0 : list N) w maxIter eps,
  (mi_rows A <> mi_cols A -> it_jacobi A b x0 maxIter eps = Throw NotSquare /\ it_sor A b x0 w maxIter eps = Throw NotSquare) /\
  (mi_rows A = mi_cols A -> mi_rows A <> length b \/ mi_rows A <> length x0 ->
     it_jacobi A b x0 maxIter eps = Throw MatrixVectorMismatch /\ it_sor A b x0 w maxIter eps = Throw MatrixVectorMismatch).
Proof. intros M. exact it_bad. Qed.
Lemma rows_dense (N : Num) (A : DenseI N) n : dbuilt A -> mi_rows A = n -> mi_cols A = n -> rows_in (M := DenseR N) A n.
Proof.
  intros HA H1 H2 i Hi. destruct (pd_reads N A HA) as (a & Hr). cbn [mi_rows mi_cols DenseI] in H1, H2. rewrite H1, H2 in Hr.
  eexists. split; [cbn [rm_row DenseR]; rewrite (proj1 (pd_row N A n n a i Hr) Hi); reflexivity|].
  apply Forall_forall. intros e He. rewrite map_map in He. apply in_map_iff in He. destruct He as (j & <- & Hj). apply in_seq in Hj. cbn. lia.
Qed.
Lemma rows_sparse (N : Num) (HZ : ZeroLaws N) (A : SparseI N) n : built A -> mi_rows A = n -> mi_cols A = n -> rows_in (M := SparseR N) A n.
Proof.
  intros HA H1 H2 i Hi. destruct (built_reads N HZ A HA) as (a & Hr). cbn [mi_rows mi_cols SparseI] in H1, H2. rewrite H1, H2 in Hr.
  eexists. split; [cbn [rm_row SparseR]; rewrite (row_iteration N HZ n n a A i HA Hr Hi); reflexivity|].
  apply Forall_forall. intros e He. rewrite map_map in He. apply in_map_iff in He. destruct He as (j & <- & Hj). apply filter_In in Hj as [Hj _].
  apply in_seq in Hj. cbn. lia.
Qed.
Theorem C45_safe (N : Num) (HZ : ZeroLaws N) : forall n (b x0 : list N) w maxIter eps, length b = n -> length x0 = n ->
  (forall A : DenseI N, dbuilt A -> mi_rows A = n -> mi_cols A = n ->
    post (it_jacobi (M := DenseR N) A b x0 maxIter eps) (fun r => length (fst r) = n /\ snd r <= maxIter) (fun e => e = MatrixHasZeroInDiag) /\
    post (it_sor (M := DenseR N) A b x0 w maxIter eps) (fun r => length (fst r) = n /\ snd r <= maxIter) (fun e => e = MatrixHasZeroInDiag)) /\
  (forall A : SparseI N, built A -> mi_rows A = n -> mi_cols A = n ->
    post (it_jacobi (M := SparseR N) A b x0 maxIter eps) (fun r => length (fst r) = n /\ snd r <= maxIter) (fun e => e = MatrixHasZeroInDiag) /\
    post (it_sor (M := SparseR N) A b x0 w maxIter eps) (fun r => length (fst r) = n /\ snd r <= maxIter) (fun e => e = MatrixHasZeroInDiag)).
Proof.
  intros n b x0 w maxIter eps Hb Hx. split; intros A HA H1 H2.
  - pose proof (rows_dense N A n HA H1 H2). split; [now apply jacobi_safe|now apply sor_safe].
  - pose proof (rows_sparse N HZ A n HA H1 H2). split; [now apply jacobi_safe|now apply sor_safe].
Qed.
(** [BUG] A zero on the diagonal is only noticed when the quotient is NaN (0/0); otherwise an infinite vector is
    returned as converged. *)
Theorem C45_zero_diagonal_refuted :
  (let* A := d_of_list ([[fz 0; fz 1]; [fz 1; fz 0]] : list (list NumF64)) in
   it_jacobi (M := DenseR NumF64) A [fz 1; fz 1] [fz 0; fz 0] 10 (fz 1)) =
   Ok ([SpecFloat.S754_infinity false; SpecFloat.S754_infinity false], 1) /\
  (let* A := d_of_list ([[fz 0; fz 1]; [fz 1; fz 0]] : list (list NumF64)) in
   it_jacobi (M := DenseR NumF64) A [fz 0; fz 0] [fz 0; fz 0] 10 (fz 1)) = Throw MatrixHasZeroInDiag.
Proof. split; vm_compute; reflexivity. Qed.
Definition ex45 : list (list Qe) := [[qz 4; qz 1]; [qz 2; qz 4]].
Example C45_example : (let* A := s_of_list ex45 in let* r := it_jacobi (M := SparseR Qe) A [qz 5; qz 6] [qz 0; qz 0] 3 tol in
   Ok (show (fst r), snd r)) = Ok ([33 # 32; 17 # 16]%Q, 3).
Proof. vm_compute. reflexivity. Qed.
(** The same system is dominant with q = 1/2 and its solution is (1, 1): the hypotheses of C45_stop hold with d = 1, and the
    bound on the number of sweeps is 13 for the tolerance 1/1000 (K = 12: 2 (2/4096)^2 <= 1/10^6); the run takes 9 of 100. *)
Definition ex45a (i j : nat) : Qe := nth j (nth i ex45 []) n0.
Definition ex45q : Qe := Qcanon.Q2Qc (1 # 2).
Example C45_stop_example : (exists A : DenseR Qe, d_of_list ex45 = Ok A /\ holds A 2 2 ex45a) /\ (forall i, i < 2 -> ex45a i i <> n0) /\
  (forall i, i < 2 -> nleb (offsum 2 i (fun j => nabs (ex45a i j))) (ex45q * nabs (ex45a i i))%num = true) /\ nleb n0 ex45q = true /\ nltb ex45q n1 = true /\
  solves 2 ex45a [qz 1; qz 1] [qz 5; qz 6] /\ (forall i, i < 2 -> nleb (nabs (nth i [qz 0; qz 0] n0 - nth i [qz 1; qz 1] n0)%num) (n1 : Qe) = true) /\
  nleb (bigsum 2 (fun _ => n1) * ((n1 + n1) * (qpow ex45q 12 * n1) * ((n1 + n1) * (qpow ex45q 12 * n1))))%num (tol * tol)%num = true /\
  (let* A := d_of_list ex45 in let* r := it_jacobi (M := DenseR Qe) A [qz 5; qz 6] [qz 0; qz 0] 100 tol in Ok (snd r)) = Ok 9.
Proof.
  split.
  { destruct (of_list_ok (N := Qe) ex45) as (A & E & H); [discriminate|vm_compute; lia|]. exists A. split; [exact E|].
    eapply holds_ext; [exact H|]. intros [|[|i]] [|[|j]] Hi Hj; try (vm_compute in Hi; lia); try (vm_compute in Hj; lia); reflexivity. }
  split; [intros [|[|i]] Hi; try lia; intros H; apply (f_equal (fun x : Qe => Qeq_bool (Qcanon.this x) 0)) in H; vm_compute in H; discriminate|].
  split; [intros [|[|i]] Hi; try lia; vm_compute; reflexivity|]. split; [vm_compute; reflexivity|]. split; [vm_compute; reflexivity|].
  split; [intros [|[|i]] Hi; try lia; apply Qcanon.Qc_is_canon; vm_compute; reflexivity|].
  split; [intros [|[|i]] Hi; try lia; vm_compute; reflexivity|]. split; vm_compute; reflexivity.
Qed.

(** ** C46.  SOR *)
(** [sor_eq n a b w old x y]: y_i = (1-w) old_i + w (b_i - sum_{j<i} a_ij y_j - sum_{j>i} a_ij x_j) / a_ii.
    Every sweep but the first mixes with the previous iterate; the first one mixes with 0. *)
Theorem C46_run_partial (N : Num) (HO : OrdFieldLaws N) : forall M, library_rows N M -> forall (A : M) n a b x0 w maxIter eps,
  holds A n n a -> length b = n -> length x0 = n -> exists X it,
  it_sor A b x0 w maxIter eps = Ok (map (X it) (seq 0 n), it) /\
  (forall i, i < n -> X 0 i = nth i x0 n0) /\ sor_eq n a (fun i => nth i b n0) w (fun _ => n0) (X 0) (X 1) /\
  (forall k, 0 < k -> sor_eq n a (fun i => nth i b n0) w (X k) (X k) (X (S k))) /\
  run_ends n X maxIter (eps * eps)%num it.
Proof. intros M HM A n a b x0 w maxIter eps HA Hb Hx. apply lr_laws in HM as [HR _]. exact (sor_run HO HR A n a b x0 HA Hb Hx w maxIter eps). Qed.
(** So it is SOR when started at 0, for every weight, *)
Theorem C46_zero_start (N : Num) (HO : OrdFieldLaws N) : forall M, library_rows N M -> forall (A : M) n a b x0 w maxIter eps,
  holds A n n a -> length b = n -> length x0 = n -> (forall i, i < n -> nth i x0 n0 = n0) -> exists X it,
  it_sor A b x0 w maxIter eps = Ok (map (X it) (seq 0 n), it) /\ (forall i, i < n -> X 0 i = n0) /\
  (forall k, sor_eq n a (fun i => nth i b n0) w (X k) (X k) (X (S k))) /\ run_ends n X maxIter (eps * eps)%num it.
Proof. intros M HM A n a b x0 w maxIter eps HA Hb Hx. apply lr_laws in HM as [HR _]. exact (sor_zero_start HO HR A n a b x0 HA Hb Hx w maxIter eps). Qed.
(** its fixed points are then exactly the solutions, *)
Theorem C46_fixed_points (N : Num) (HO : OrdFieldLaws N) : forall n (a : nat -> nat -> N) b w x,
  (forall i, i < n -> a i i <> n0) -> w <> n0 ->
  (sor_eq n a b w x x x <-> forall i, i < n -> mulvec n a x i = b i).
Proof. intros n a b w x Hd Hw. split; [exact (sor_fixed_conv HO n a b w x Hd Hw)|exact (sor_fixed HO n a b w x Hd)]. Qed.
(** for 0 <= w <= 2 and a symmetric matrix with positive diagonal the energy error never grows, *)
Theorem C46_energy (N : Num) (HO : OrdFieldLaws N) : forall M, library_rows N M -> forall (A : M) n a b x0 w s maxIter eps,
  holds A n n a -> length b = n -> length x0 = n -> symmetric2 n a -> (forall i, i < n -> nltb n0 (a i i) = true) -> solves n a s b ->
  nleb n0 w = true -> nleb w (n1 + n1)%num = true -> (forall i, i < n -> nth i x0 n0 = n0) ->
  exists y it, it_sor A b x0 w maxIter eps = Ok (y, it) /\ it <= maxIter /\
    nleb (energy n a (fun i => nth i s n0) (fun i => nth i y n0)) (energy n a (fun i => nth i s n0) (fun i => nth i x0 n0)) = true.
Proof. intros M HM A n a b x0 w s maxIter eps HA Hb Hx. apply lr_laws in HM as [HR _]. exact (sor_energy_run HO HR A n a b x0 HA Hb Hx w s maxIter eps). Qed.
(** For 0 < w < 2 and a symmetric positive definite matrix it converges from 0 at a rate q < 1 that only depends on the matrix and w; and if it
    ends before maxIter, the tolerance bounds the error up to a constant that also only depends on the matrix and w. *)
Theorem C46_convergence (N : Num) (HO : OrdFieldLaws N) : forall n (a : nat -> nat -> N) w, symmetric2 n a -> pos_def n a ->
  nltb n0 w = true -> nltb w (n1 + n1)%num = true ->
  exists q C : N, nleb n0 q = true /\ nltb q n1 = true /\ nleb n0 C = true /\
  forall M, library_rows N M -> forall (A : M) b x0 s maxIter eps, holds A n n a -> length b = n -> length x0 = n ->
    (forall i, i < n -> nth i x0 n0 = n0) -> solves n a s b ->
    exists y it, it_sor A b x0 w maxIter eps = Ok (y, it) /\ it <= maxIter /\ length y = n /\
      (forall i, i < n -> nleb ((nth i y n0 - nth i s n0) * (nth i y n0 - nth i s n0))%num (C * (qpow q it * norm2sq n s))%num = true) /\
      (it < maxIter -> forall i, i < n -> nleb ((nth i y n0 - nth i s n0) * (nth i y n0 - nth i s n0))%num (C * (eps * eps))%num = true).
Proof.
  intros n a w Hs Hp H0 H2. destruct (block_converges HO n a _ _ w (one_level HO n a Hs Hp) H0 H2) as (q & C & Hq0 & Hq1 & HC & HB). exists q, C. do 3 (split; [assumption|]).
  intros M HM A b x0 s maxIter eps HA Hb Hx Hz Hsol. apply lr_laws in HM as [HR _].
  destruct (HB M HR A b x0 s maxIter eps HA Hb Hx Hz Hsol) as (y & it & E & H). exists y, it. tauto.
Qed.
(** From any start the same holds for the energy error, counted from the result x1 of the first sweep. *)
Theorem C46_convergence_any_start (N : Num) (HO : OrdFieldLaws N) : forall n (a : nat -> nat -> N) w, symmetric2 n a -> pos_def n a ->
  nltb n0 w = true -> nltb w (n1 + n1)%num = true ->
  exists q C : N, nleb n0 q = true /\ nltb q n1 = true /\ nleb n0 C = true /\
  forall b x0 s, length b = n -> length x0 = n -> solves n a s b -> exists x1, length x1 = n /\
  forall M, library_rows N M -> forall (A : M) maxIter eps, holds A n n a -> 0 < maxIter ->
    it_sor A b x0 w 1 eps = Ok (x1, 1) /\
    exists y it, it_sor A b x0 w maxIter eps = Ok (y, it) /\ 1 <= it <= maxIter /\ length y = n /\
      nleb (energy n a (fun i => nth i s n0) (fun i => nth i y n0)) (qpow q (it - 1) * energy n a (fun i => nth i s n0) (fun i => nth i x1 n0))%num = true /\
      (1 < it -> it < maxIter -> nleb (energy n a (fun i => nth i s n0) (fun i => nth i y n0)) (C * (eps * eps))%num = true).
Proof.
  intros n a w Hs Hp H0 H2. destruct (sor_converges HO n a w Hs Hp H0 H2) as (q & C & D & Hq0 & Hq1 & HC & _ & HS). exists q, C. do 3 (split; [assumption|]).
  intros b x0 s Hb Hx Hsol. destruct (HS b x0 s Hb Hx Hsol) as (x1 & L1 & _ & H). exists x1. split; [assumption|]. intros M HM A maxIter eps HA Hm.
  apply lr_laws in HM as [HR _]. destruct (H M HR A maxIter eps HA) as [E1 H']. split; [exact E1|]. destruct (H' Hm) as (y & it & E & Hi & Hl & He & Ht & _). exists y, it. tauto.
Qed.
(** So it ends by itself: with a tolerance that is not 0 the number of iterations is bounded whatever maxIter is
    (when the natural numbers are unbounded among the numbers). *)
Theorem C46_terminates (N : Num) (HO : OrdFieldLaws N) (HN : NatLaws N) : archimedean N ->
  forall n (a : nat -> nat -> N) w b x0 eps, symmetric2 n a -> pos_def n a -> nltb n0 w = true -> nltb w (n1 + n1)%num = true ->
  length b = n -> length x0 = n -> eps <> n0 ->
  exists K, forall M, library_rows N M -> forall (A : M) maxIter, holds A n n a -> returns (it_sor A b x0 w maxIter eps) (fun r => snd r <= K).
Proof.
  intros HA n a w b x0 eps Hs Hp H0 H2 Hb Hx He. destruct (sor_terminates HO HN HA n a w Hs Hp H0 H2 b x0 eps Hb Hx He) as (K & HK). exists K.
  intros M HM A maxIter Hh. apply lr_laws in HM as [HR _]. destruct (HK M HR A maxIter Hh) as (y & it & E & Hi). eexists. split; [exact E|]. exact Hi.
Qed.
(** The matrix ((2, 1), (1, 2)) satisfies the hypotheses. *)
Definition ex46a (i j : nat) : Qe := if i =? j then qz 2 else qz 1.
Example C46_spd_example : symmetric2 2 ex46a /\ pos_def 2 ex46a.
Proof.
  split; [intros i j _ _; unfold ex46a; now rewrite Nat.eqb_sym|]. intros x (i & Hi & Hx).
  assert (E : bigsum 2 (fun i => bigsum 2 (fun j => x i * ex46a i j * x j))%num = ((x 0 * x 0 + x 1 * x 1) + (x 0 + x 1) * (x 0 + x 1) : Qe)%num).
  { cbn [bigsum ex46a Nat.eqb]. change (qz 2 : Qe) with (Qcanon.Qcplus 1%Qc 1%Qc). change (qz 1 : Qe) with 1%Qc. cbn [nadd nmul n0 Qe with_eps NumQc T]. ring. }
  rewrite E. apply (olt_0_add Qe_ord); [|apply (ole_0_sqr Qe_ord)].
  destruct i as [|[|i]]; [| |lia].
  - apply (olt_0_add Qe_ord); [now apply (olt_0_sqr Qe_ord)|apply (ole_0_sqr Qe_ord)].
  - replace (x 0 * x 0 + x 1 * x 1)%num with (x 1 * x 1 + x 0 * x 0 : Qe)%num by (cbn [nadd nmul Qe with_eps NumQc T]; ring).
    apply (olt_0_add Qe_ord); [now apply (olt_0_sqr Qe_ord)|apply (ole_0_sqr Qe_ord)].
Qed.
Example C46_archimedean : archimedean Qe /\ archimedean NumR.
Proof. split; [exact arch_Qc|exact arch_R]. Qed.
(** With weight 1 it is Gauss-Seidel from every start: solutions stay fixed and dominant systems converge. *)
Theorem C46_gauss_seidel_fixed (N : Num) (HO : OrdFieldLaws N) : forall M, library_rows N M -> forall (A : M) n a b x0 maxIter eps,
  holds A n n a -> length b = n -> length x0 = n -> 0 < maxIter -> (forall i, i < n -> a i i <> n0) ->
  solves n a x0 b -> it_sor A b x0 n1 maxIter eps = Ok (x0, 1).
Proof. intros M HM A n a b x0 maxIter eps HA Hb Hx. apply lr_laws in HM as [HR _]. exact (gs_fixed HO HR A n a b x0 HA Hb Hx maxIter eps). Qed.
Theorem C46_gauss_seidel_convergence (N : Num) (HO : OrdFieldLaws N) : forall M, library_rows N M -> forall (A : M) n a b x0 q s d maxIter eps,
  holds A n n a -> length b = n -> length x0 = n -> (forall i, i < n -> a i i <> n0) ->
  (forall i, i < n -> nleb (offsum n i (fun j => nabs (a i j))) (q * nabs (a i i))%num = true) -> nleb n0 q = true -> nleb q n1 = true ->
  solves n a s b -> (forall i, i < n -> nleb (nabs (nth i x0 n0 - nth i s n0)%num) d = true) ->
  exists y it, it_sor A b x0 n1 maxIter eps = Ok (y, it) /\ it <= maxIter /\
    forall i, i < n -> nleb (nabs (nth i y n0 - nth i s n0)%num) (qpow q it * d)%num = true.
Proof. intros M HM A n a b x0 q s d maxIter eps HA Hb Hx. apply lr_laws in HM as [HR _]. exact (gs_contraction HO HR A n a b x0 HA Hb Hx q s d maxIter eps). Qed.
(** And a stop by tolerance is the same error bound as for Jacobi's method (C45_stop; C45_terminates covers both). *)
Theorem C46_gauss_seidel_stop (N : Num) (HO : OrdFieldLaws N) : forall M, library_rows N M -> forall (A : M) n a b x0 q s d maxIter eps,
  holds A n n a -> length b = n -> length x0 = n -> (forall i, i < n -> a i i <> n0) ->
  (forall i, i < n -> nleb (offsum n i (fun j => nabs (a i j))) (q * nabs (a i i))%num = true) -> nleb n0 q = true -> nltb q n1 = true ->
  solves n a s b -> nleb n0 d = true -> (forall i, i < n -> nleb (nabs (nth i x0 n0 - nth i s n0)%num) d = true) ->
  exists y it, it_sor A b x0 n1 maxIter eps = Ok (y, it) /\ length y = n /\ it <= maxIter /\
    (it < maxIter -> forall i, i < n -> nleb ((n1 - q) * nabs (nth i y n0 - nth i s n0))%num (q * nabs eps)%num = true) /\
    (forall K, nleb (bigsum n (fun _ => n1) * ((n1 + n1) * (qpow q K * d) * ((n1 + n1) * (qpow q K * d))))%num (eps * eps)%num = true -> it <= S K).
Proof. intros M HM A n a b x0 q s d maxIter eps HA Hb Hx. apply lr_laws in HM as [HR _]. exact (gs_stops HO HR A n a b x0 HA Hb Hx q d s eps maxIter). Qed.
(** [BUG] Weight 1/2, system x = 1: from the solution 1 the first sweep goes to 1/2; and from 1/2 the iteration reports
    convergence after one step at 1/2. *)
Definition half : Qe := Qcanon.Q2Qc (1 # 2).
Theorem C46_first_sweep_refuted :
  (let* A := d_of_list ([[qz 1]] : list (list Qe)) in let* r := it_sor (M := DenseR Qe) A [qz 1] [qz 1] half 1 tol in
   Ok (show (fst r), snd r)) = Ok ([1 # 2]%Q, 1) /\
  (let* A := d_of_list ([[qz 1]] : list (list Qe)) in let* r := it_sor (M := DenseR Qe) A [qz 1] [half] half 100 tol in
   Ok (show (fst r), snd r)) = Ok ([1 # 2]%Q, 1).
Proof. split; vm_compute; reflexivity. Qed.
Example C46_example : (let* A := s_of_list ex45 in let* r := it_sor (M := SparseR Qe) A [qz 5; qz 6] [qz 0; qz 0] (qz 1) 3 tol in
   Ok (show (fst r), snd r)) = Ok ([257 # 256; 511 # 512]%Q, 3).
Proof. vm_compute. reflexivity. Qed.
