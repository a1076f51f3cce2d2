(** Properties C36-C42: LU, Cholesky, triangular solves, incomplete LU, inverses, determinant.
    [holds m n n a]: rows(), columns() and at(i,j) of m answer like the table a.
    [post r Q E]: r returns a value satisfying Q or throws an exception satisfying E (never aborts, never hangs,
    no undefined behaviour).  [tiny x] is the code's test std::abs(x) <= epsilon. *)
From Coq Require Import List Arith Bool ZArith QArith Lia Reals Lra Permutation.
From Verif Require Import Base BaseProofs Num NumInst NumEps OrdField Spec SpecProofs VectorModel SparseModel SparseSpec DenseModel DenseSpec DenseProofs
  MatI MatIProofs MatOps MatOpsProofs UtilsSpec UtilsInst ExampleBase PropConstruct OrderProofs
  DetSpec DetProofs DetMult LUModel LUProofs LUNear LUSolve LUResult CholProofs LUInv ILUProofs LUCond.
Import ListNotations.
Local Open Scope nat_scope.
Open Scope res_scope.

(** Matrix types with row iterators, over exact arithmetic. *)
Inductive library_rows (N : Num) : RowMat N -> Prop :=
| lr_dense : FieldLaws N -> library_rows N (DenseR N)
| lr_sparse : FieldLaws N -> library_rows N (SparseR N).
Lemma lr_laws N M : library_rows N M -> RowLaws M /\ FieldLaws N.
Proof. intros [HF|HF]; split; auto; [exact (dense_rows N HF)|exact (sparse_rows N HF)]. Qed.

Lemma ord_tiny N : OrdFieldLaws N -> tiny (@n0 N) = true.
Proof.
  intros HO. unfold tiny. rewrite (proj2 (oabs_0_iff HO n0) eq_refl). exact (of_eps N HO).
Qed.
(** x is the two-sided inverse of the n x n table a. *)
Definition inverse_of {N : Num} (n : nat) (a x : nat -> nat -> N) : Prop :=
  (forall i j, i < n -> j < n -> bigsum n (fun k => a i k * x k j)%num = if i =? j then n1 else n0) /\
  (forall i j, i < n -> j < n -> bigsum n (fun k => x i k * a k j)%num = if i =? j then n1 else n0).

(** Example numbers: exact rationals with epsilon 0, and with the epsilon of double. *)
Definition Qe : Num := with_eps NumQc (qz 0).
Lemma Qe_ord : OrdFieldLaws Qe.
Proof. apply with_eps_ord; [exact NumQc_ord|vm_compute; reflexivity]. Qed.
Definition Qe_field : FieldLaws Qe := of_field Qe Qe_ord.
Definition show (l : list Qe) : list QArith_base.Q := map Qcanon.this l.

(** ** C36.  The decomposition P*A = L*U; l below the diagonal has absolute value at most 1. *)
Definition lu_result {N : Num} {I : MatI N} (n : nat) (a : nat -> nat -> N) (r : I * I * I * nat) : Prop :=
  let '(L, U, P, cnt) := r in exists l u p,
    holds L n n l /\ holds U n n u /\ holds P n n p /\ plu n a l u p cnt /\ cnt < n /\
    (OrdFieldLaws N -> forall i j, j < i -> i < n -> nleb (nabs (l i j)) n1 = true) /\
    det n u = (sgn cnt * det n a)%num.
Theorem C36_sparse (N : Num) (HF : FieldLaws N) : tiny (@n0 N) = true -> forall (A : SparseI N) n a, 0 < n -> holds A n n a ->
  post (doolittle_sparse A) (lu_result n a) (fun e => e = Singular /\ (OrdFieldLaws N -> near_singular n a /\ (@neps N = n0 -> det n a = n0))).
Proof. intros Ht A n a. exact (doolittle_sparse_ok HF Ht (sparse_laws N HF) A n a). Qed.
(** The dense overload, when the output parameters L and P are zero matrices of the right size ... *)
Theorem C36_dense_partial (N : Num) (HF : FieldLaws N) : tiny (@n0 N) = true -> forall (A L0 P0 : DenseI N) n a, 0 < n -> holds A n n a ->
  holds L0 n n (fun _ _ => n0) -> holds P0 n n (fun _ _ => n0) ->
  post (doolittle_dense A L0 P0) (lu_result n a) (fun e => e = Singular /\ (OrdFieldLaws N -> near_singular n a /\ (@neps N = n0 -> det n a = n0))).
Proof. intros Ht A L0 P0 n a. exact (doolittle_dense_ok HF Ht dense_laws A L0 P0 n a). Qed.
(** ... and in general: L keeps the old entries above the diagonal, P keeps every old entry outside the pivots. *)
Theorem C36_dense_any_output_partial (N : Num) (HF : FieldLaws N) : tiny (@n0 N) = true -> forall (A L0 P0 : DenseI N) n a l0 p0, 0 < n ->
  holds A n n a -> holds L0 n n l0 -> holds P0 n n p0 ->
  post (doolittle_dense A L0 P0) (fun r => let '(L, U, P, cnt) := r in exists l u rt,
      holds L n n l /\ holds U n n u /\ holds P n n (fun i j => if j =? nth i rt 0 then n1 else p0 i j) /\
      exchanges n rt cnt /\ cnt < n /\
      plu n a (lo_part l) u (fun i j => if j =? nth i rt 0 then n1 else n0) cnt /\
      (OrdFieldLaws N -> forall i j, j < i -> i < n -> nleb (nabs (l i j)) n1 = true) /\
      det n u = (sgn cnt * det n a)%num /\
      forall i j, i < j -> j < n -> l i j = l0 i j)
    (fun e => e = Singular /\ (OrdFieldLaws N -> near_singular n a /\ (@neps N = n0 -> det n a = n0))).
Proof. intros Ht A L0 P0 n a l0 p0. exact (doolittle_dense_gen HF Ht dense_laws A L0 P0 n a l0 p0). Qed.
Theorem C36_bad_shapes (N : Num) : forall I : MatI N, forall A L0 P0 : I,
  (mi_rows A <> mi_cols A -> doolittle_dense A L0 P0 = Throw NotSquare /\ doolittle_sparse A = Throw NotSquare) /\
  (mi_rows A = mi_cols A -> mi_rows A <> mi_rows L0 \/ mi_cols A <> mi_cols L0 \/ mi_rows A <> mi_rows P0 \/ mi_cols A <> mi_cols P0 ->
    doolittle_dense A L0 P0 = Throw InvalidOutputMatrix).
Proof. intros I. exact doolittle_bad. Qed.
(** Test matrix: the first pivot is not the largest, so rows are exchanged. *)
Definition ex36 : list (list Qe) := [[qz 1; qz 1; qz 1]; [qz 2; qz 3; qz 5]; [qz 4; qz 6; qz 8]].
(** [BUG] A decomposition into matrices that are not zero (here: copies of A, as inverse(m) passes them) gives
    neither a lower triangular L nor a permutation matrix P. *)
Theorem C36_dirty_output_refuted :
  (let* A := d_of_list ex36 in let* r := @doolittle_dense Qe (DenseI Qe) A A A in
   Ok (show (dv (fst (fst (fst r)))), show (dv (snd (fst r))))) =
  Ok ([1; 1; 1; 1 # 4; 1; 5; 1 # 2; 0; 1], [1; 1; 1; 1; 3; 5; 4; 1; 8])%Q.
Proof. vm_compute. reflexivity. Qed.
(** The exception is thrown only near singular matrices, so never for a matrix whose inverse x has small enough row sums (a
    well-conditioned matrix, epsilon * max_i sum_k |x_ik| < 1). *)
Theorem C36_well_conditioned (N : Num) (HO : OrdFieldLaws N) : forall n a x, 0 < n -> inverse_of n a x ->
  (forall i, i < n -> nltb (neps * bigsum n (fun k => nabs (x i k)))%num n1 = true) ->
  (forall A : SparseI N, holds A n n a -> returns (doolittle_sparse A) (lu_result n a)) /\
  (forall A L0 P0 : DenseI N, holds A n n a -> holds L0 n n (fun _ _ => n0) -> holds P0 n n (fun _ _ => n0) ->
     returns (doolittle_dense A L0 P0) (lu_result n a)).
Proof.
  intros n a x Hn [Hx _] Hb. pose proof (well_conditioned HO n a x Hx Hb) as Hw. pose proof (of_field N HO) as HF.
  pose proof (ord_tiny N HO) as Ht. split.
  - intros A HA. apply (post_returns _ _ _ (C36_sparse N HF Ht A n a Hn HA)). intros e [_ H]. now apply Hw, (H HO).
  - intros A L0 P0 HA HL HP. apply (post_returns _ _ _ (C36_dense_partial N HF Ht A L0 P0 n a Hn HA HL HP)).
    intros e [_ H]. now apply Hw, (H HO).
Qed.
(** Two exchanges; the permutation is (2,0,1). *)
Example C36_example :
  (let* A := s_of_list ex36 in let* r := @doolittle_sparse Qe (SparseI Qe) A in
   Ok (show (sv (fst (fst (fst r)))), show (sv (snd (fst (fst r)))), sc (snd (fst r)), snd r)) =
  Ok ([1; 1 # 4; 1; 1 # 2; 1]%Q, [4; 6; 8; -1 # 2; -1; 1]%Q, [2; 0; 1], 2).
Proof. vm_compute. reflexivity. Qed.
Example C36_example_hypotheses : tiny (@n0 Qe) = true /\ tiny (@n0 NumQc) = true /\
  exists A : SparseI Qe, s_of_list ex36 = Ok A /\ exists a, holds A 3 3 a /\ det 3 a <> n0.
Proof.
  split; [apply ord_tiny, Qe_ord|]. split; [apply ord_tiny, NumQc_ord|].
  exists (get (mkS [] [] [] 0 n0 : smat Qe) (s_of_list ex36)). split; [apply ok_get; vm_compute; reflexivity|].
  exists (fun i j => nth j (nth i ex36 []) n0). split.
  - apply (s_holds Qe). split; [apply b_list with (l := ex36); apply ok_get; vm_compute; reflexivity|].
    split; [vm_compute; reflexivity|]. split; [vm_compute; reflexivity|].
    intros i j Hi Hj. destruct i as [|[|[|]]]; try lia; destruct j as [|[|[|]]]; try lia; vm_compute; reflexivity.
  - intros E. apply (f_equal Qcanon.this) in E. vm_compute in E. discriminate.
Qed.

(** A matrix that meets the conditions of the well-conditioned theorems, with the epsilon of double. *)
Definition wc_a (i j : nat) : NumQc := nth j (nth i [[qz 2; qz 1]; [qz 1; qz 1]] []) (qz 0).
Definition wc_x (i j : nat) : NumQc := nth j (nth i [[qz 1; qz (-1)]; [qz (-1); qz 2]] []) (qz 0).
Example C36_well_conditioned_example : @neps NumQc <> n0 /\ nltb (@neps NumQc) n1 = true /\ inverse_of 2 wc_a wc_x /\
  (forall i, i < 2 -> nltb (neps * bigsum 2 (fun k => nabs (wc_x i k)))%num n1 = true) /\
  exists A, s_of_list [[qz 2; qz 1]; [qz 1; qz 1]] = Ok A /\ holds (A : SparseI NumQc) 2 2 wc_a.
Proof.
  split; [intros E; apply (f_equal Qcanon.this) in E; vm_compute in E; discriminate|]. split; [vm_compute; reflexivity|].
  split; [split; intros i j Hi Hj; destruct i as [|[|]]; try lia; destruct j as [|[|]]; try lia; apply Qcanon.Qc_is_canon; vm_compute; reflexivity|].
  split; [intros i Hi; destruct i as [|[|]]; try lia; vm_compute; reflexivity|].
  eexists. split; [apply (ok_get (mkS [] [] [] 0 n0 : smat NumQc)); vm_compute; reflexivity|].
  apply (s_holds NumQc). split; [apply b_list with (l := [[qz 2; qz 1]; [qz 1; qz 1]]); apply ok_get; vm_compute; reflexivity|].
  split; [vm_compute; reflexivity|]. split; [vm_compute; reflexivity|].
  intros i j Hi Hj. destruct i as [|[|]]; try lia; destruct j as [|[|]]; try lia; vm_compute; reflexivity.
Qed.

(** ** C37.  a symmetric and positive definite: cholesky returns the lower triangular L with positive diagonal
    and L*L^T = A.  The output parameter starts as the zero matrix. *)
Theorem C37_spd (N : Num) (HO : OrdFieldLaws N) (HS : SqrtLaws N) : forall I, library_matrix N I -> forall (m L0 : I) n a,
  holds m n n a -> holds L0 n n (fun _ _ => n0) ->
  (forall i j, i < n -> j < n -> a i j = a j i) ->
  (forall x : nat -> N, (exists i, i < n /\ x i <> n0) ->
     nltb n0 (bigsum n (fun i => bigsum n (fun j => x i * a i j * x j)))%num = true) ->
  returns (cholesky m L0) (fun L => exists l, holds L n n l /\ (forall i j, i < j -> j < n -> l i j = n0) /\
    (forall i, i < n -> nltb n0 (l i i) = true) /\
    forall i j, i < n -> j < n -> bigsum n (fun k => l i k * l j k)%num = a i j).
Proof. intros I HI m L0 n a. apply lm_laws in HI. exact (cholesky_ok HI HO HS m L0 n a). Qed.
(** For every symmetric matrix whose leading principal minors are not 0, cholesky decides positive
    definiteness: it returns the factor exactly when the matrix is positive definite, and otherwise throws
    NotPositiveDefinite.  (Missing: symmetric matrices with a vanishing leading minor, see below.) *)
Theorem C37_symmetric_partial (N : Num) (HO : OrdFieldLaws N) (HS : SqrtLaws N) : forall I, library_matrix N I -> forall (m L0 : I) n a,
  holds m n n a -> holds L0 n n (fun _ _ => n0) ->
  (forall i j, i < n -> j < n -> a i j = a j i) -> (forall k, 0 < k <= n -> det k a <> n0) ->
  post (cholesky m L0)
    (fun L => pos_def n a /\ exists l, holds L n n l /\ (forall i j, i < j -> j < n -> l i j = n0) /\
       (forall i, i < n -> nltb n0 (l i i) = true) /\
       forall i j, i < n -> j < n -> bigsum n (fun k => l i k * l j k)%num = a i j)
    (fun e => e = NotPositiveDefinite /\ exists x, (exists i, i < n /\ x i <> n0) /\
       nltb (bigsum n (fun i => bigsum n (fun j => x i * a i j * x j)))%num n0 = true).
Proof.
  intros I HI m L0 n a Hm H0 Hs Hd. apply lm_laws in HI.
  eapply post_mono; [exact (cholesky_minors HI HO HS m L0 n a Hm H0 Hs Hd)| |auto].
  intros L HL. split; [exact (proj2 (done_pos_def HO L n a HL))|exact HL].
Qed.
Theorem C37_bad_shapes (N : Num) : forall I : MatI N, forall m L0 : I,
  (mi_rows m <> mi_cols m -> cholesky m L0 = Throw NotSquare) /\
  (mi_rows m = mi_cols m -> mi_rows m <> mi_rows L0 \/ mi_cols m <> mi_cols L0 -> cholesky m L0 = Throw InvalidOutputMatrix).
Proof. intros I. exact cholesky_bad. Qed.
(** [BUG] On the semidefinite matrix [[0]] it neither throws nor returns a factor: it divides 0 by 0. *)
Theorem C37_semidefinite_refuted :
  (let* A := d_of_list ([[fz 0]] : list (list NumF64)) in let* L := cholesky (I := DenseI NumF64) A (d_fixed_new 1 1) in
   Ok (map (fun x => nisnan x) (dv L))) = Ok [true].
Proof. vm_compute. reflexivity. Qed.
(** [BUG] The old entries of the output parameter are read: with L starting as a copy of the positive definite
    [[1,1],[1,4]] the result is [[1,1],[0,2]], neither lower triangular nor a factor. *)
Theorem C37_dirty_output_refuted :
  (let* A := d_of_list ([[qz 1; qz 1]; [qz 1; qz 4]] : list (list Qe)) in let* L := cholesky (I := DenseI Qe) A A in
   Ok (show (dv L))) = Ok [1; 1; 0; 2]%Q.
Proof. vm_compute. reflexivity. Qed.
Definition ex37 (i j : nat) : NumR := (if i =? j then 2 else 1)%R.
Example C37_example_hypotheses : (forall i j, i < 2 -> j < 2 -> ex37 i j = ex37 j i) /\ pos_def 2 ex37 /\ SqrtLaws NumR /\
  (forall k, 0 < k <= 2 -> det k ex37 <> n0).
Proof.
  split; [intros i j _ _; unfold ex37; now rewrite Nat.eqb_sym|]. split; [|split; [exact NumR_sqrt|]].
  - intros x (i & Hi & Hx). cbn in *. match goal with |- negb ?b = true => destruct b eqn:H end; [exfalso; apply Rle_bool_iff in H|reflexivity].
    assert (x 0%nat <> 0 \/ x 1%nat <> 0)%R as Hn by (destruct i as [|[|]]; auto; lia).
    unfold ex37 in H. cbn in H. assert (x 0%nat * x 0%nat + x 1%nat * x 1%nat + (x 0%nat + x 1%nat) * (x 0%nat + x 1%nat) <= 0)%R by lra.
    pose proof (Rle_0_sqr (x 0)). pose proof (Rle_0_sqr (x 1)). pose proof (Rle_0_sqr (x 0%nat + x 1%nat)%R). unfold Rsqr in *.
    destruct Hn as [Hn|Hn]; apply Hn; apply Rsqr_0_uniq; unfold Rsqr; lra.
  - intros k Hk. assert (k = 1 \/ k = 2) as [->| ->] by lia; unfold ex37; cbn; lra.
Qed.

(** ** C38 *)
Theorem C38_solve (N : Num) : tiny (@n0 N) = true -> forall M, library_rows N M -> forall (L U : M) n l u (b : list N), 0 < n ->
  holds L n n l -> holds U n n u -> length b = n ->
  post (solve_lu L U b)
    (fun x => length x = n /\ (forall i, i < n -> tiny (l i i) = false) /\ (forall i, i < n -> tiny (u i i) = false) /\
       forall i, i < n ->
         bigsum n (fun r => lo_part l i r * bigsum n (fun k => up_part u r k * nth k x n0))%num = nth i b n0)
    (fun e => e = Singular /\ ((exists i, i < n /\ tiny (l i i) = true) \/ (exists i, i < n /\ tiny (u i i) = true))).
Proof. intros Ht M HM L U n l u b. apply lr_laws in HM as [HR HF]. exact (solve_ok HR HF Ht L U n l u b). Qed.
Theorem C38_bad_shapes (N : Num) : forall M : RowMat N, forall (L U : M) b,
  (mi_rows L <> mi_cols L \/ mi_rows U <> mi_cols U -> solve_lu L U b = Throw NotSquare) /\
  (mi_rows L = mi_cols L -> mi_rows U = mi_cols U -> mi_rows L <> mi_rows U -> solve_lu L U b = Throw MatrixSizeMismatch) /\
  (mi_rows L = mi_cols L -> mi_rows U = mi_cols U -> mi_rows L = mi_rows U -> mi_rows L <> length b ->
     solve_lu L U b = Throw MatrixVectorMismatch).
Proof. intros M. exact solve_bad. Qed.
Example C38_example :
  (let* L := d_of_list ([[qz 2; qz 9]; [qz 1; qz 1]] : list (list Qe)) in
   let* U := d_of_list ([[qz 1; qz 3]; [qz 7; qz 4]] : list (list Qe)) in
   let* x := @solve_lu Qe (DenseR Qe) L U [qz 2; qz 5] in Ok (show x)) = Ok [-2; 1]%Q.
Proof. vm_compute. reflexivity. Qed.

(** ** C39.  a has no zero on its diagonal; L and U start as zero matrices.  Singular is thrown only because the incomplete
    factorisation of the first m rows has a tiny pivot by which an entry of row m has to be divided. *)
Theorem C39_ilu0 (N : Num) (HF : FieldLaws N) : tiny (@n0 N) = true -> forall n a (A L U : smat N), 0 < n ->
  @holds N (SparseI N) A n n a ->
  @holds N (SparseI N) L n n (fun _ _ => n0) -> @holds N (SparseI N) U n n (fun _ _ => n0) ->
  (forall i, i < n -> a i i <> n0) ->
  post (ilu0 A L U) (fun LU => exists l u,
    @holds N (SparseI N) (fst LU) n n l /\ @holds N (SparseI N) (snd LU) n n u /\
    ilu_tables n n a l u)
   (fun e => e = Singular /\ exists m c l u, c < m /\ m < n /\ ilu_tables n m a l u /\ a m c <> n0 /\ tiny (u c c) = true).
Proof. intros Ht n a A L U. exact (ilu0_ok HF Ht n a A L U). Qed.
Theorem C39_not_square (N : Num) : forall A L U : smat N, s_rows A <> s_cols A -> ilu0 A L U = Throw NotSquare.
Proof. intros A L U H. unfold ilu0. destruct (Nat.eqb_spec (s_rows A) (s_cols A)); [contradiction|reflexivity]. Qed.
Definition ex39 : list (list Qe) :=
  [[qz 4; qz 1; qz 0; qz 1]; [qz 1; qz 4; qz 1; qz 0]; [qz 0; qz 1; qz 4; qz 1]; [qz 1; qz 0; qz 1; qz 4]].
Example C39_example :
  (let* A := s_of_list ex39 in let* Z := s_new 4 4 in let* r := ilu0 (N := Qe) A Z Z in
   Ok (show (sv (fst r)), sc (fst r), show (sv (snd r)), sc (snd r))) =
  Ok ([1; 1 # 4; 1; 4 # 15; 1; 1 # 4; 15 # 56; 1]%Q, [0; 0; 1; 1; 2; 0; 2; 3],
      [4; 1; 1; 15 # 4; 1; 56 # 15; 1; 195 # 56]%Q, [0; 1; 3; 1; 2; 2; 3; 3]).
Proof. vm_compute. reflexivity. Qed.

(** ** C40.  The inverse of the unit lower factor is right (invL starts as a zero matrix) ... *)
Theorem C40_lower_partial (N : Num) : forall M, library_rows N M -> forall (L U X Y : M) n l u y,
  holds L n n l -> holds U n n u -> holds X n n (fun _ _ => n0) -> holds Y n n y ->
  (forall i, i < n -> l i i = n1) ->
  post (ainv_lu L U X Y) (fun XY => exists x, holds (fst XY) n n x /\ (forall i j, i < j -> j < n -> x i j = n0) /\
      inverse_of n (lo_part l) x)
    (fun e => e = Singular /\ exists i, i < n /\ tiny (u i i) = true).
Proof.
  intros M HM L U X Y n l u y H1 H2 H3 H4 H5. apply lr_laws in HM as [HR HF].
  eapply post_mono; [exact (ainv_ok HR HF L U X Y n l u y H1 H2 H3 H4 H5)| |auto].
  intros XY (_ & x & Hx). exists x. exact Hx.
Qed.
(** ... [BUG] but not that of the upper factor: the loop for column k visits the rows below n-k instead of those
    below k.  The 1x1 factor (u) gives 1/u^2 ... *)
Theorem C40_upper_1x1_refuted (N : Num) : forall u : N, tiny u = false ->
  (let* L := d_of_list [[n1]] in let* U := d_of_list [[u]] in
   let* r := @ainv_lu N (DenseR N) L U (d_fixed_new 1 1) (d_fixed_new 1 1) in Ok (dv (snd r))) = Ok [(n1 / u / u)%num].
Proof. intros u Hu. cbn. rewrite Hu. reflexivity. Qed.
(** ... and with a unit diagonal entries are missing from size 3 on: the right inverse of
    ((1,2,3),(0,1,4),(0,0,1)) is ((1,-2,5),(0,1,-4),(0,0,1)). *)
Theorem C40_upper_3x3_refuted :
  (let* U := d_of_list ([[qz 1; qz 2; qz 3]; [qz 0; qz 1; qz 4]; [qz 0; qz 0; qz 1]] : list (list Qe)) in
   let* r := @ainv_lu Qe (DenseR Qe) U U (d_fixed_new 3 3) (d_fixed_new 3 3) in Ok (show (dv (snd r)))) =
  Ok [1; -2; -3; 0; 1; 0; 0; 0; 1]%Q.
Proof. vm_compute. reflexivity. Qed.
Example C40_example :
  (let* L := d_of_list ([[qz 1; qz 0; qz 0]; [qz 2; qz 1; qz 0]; [qz 3; qz 4; qz 1]] : list (list Qe)) in
   let* r := @ainv_lu Qe (DenseR Qe) L L (d_fixed_new 3 3) (d_fixed_new 3 3) in Ok (show (dv (fst r)))) =
  Ok [1; 0; 0; -2; 1; 0; 5; -4; 1]%Q.
Proof. vm_compute. reflexivity. Qed.

(** ** C41.  In exact arithmetic (epsilon 0) determinant(m) is the determinant, for every matrix type, whether
    singular or not ... *)
Theorem C41_exact (N : Num) (HO : OrdFieldLaws N) : @neps N = n0 -> forall n a, 0 < n ->
  (forall A : DenseI N, holds A n n a -> det_dense A = Ok (det n a) /\ det_fixed A = Ok (det n a)) /\
  (forall A : SparseI N, holds A n n a -> det_sparse A = Ok (det n a)).
Proof.
  intros He n a Hn. pose proof (of_field N HO) as HF. pose proof (ord_tiny N HO) as Ht. split; [intros A HA; split|intros A HA].
  - destruct (det_dense_ok HF Ht A n a Hn HA) as (d & -> & _ & H). now rewrite (H HO He).
  - destruct (det_fixed_ok HF Ht A n a Hn HA) as (d & -> & _ & H). now rewrite (H HO He).
  - destruct (det_sparse_ok HF Ht A n a Hn HA) as (d & -> & _ & H). now rewrite (H HO He).
Qed.
(** ... it is multiplicative and changes sign when two rows are exchanged, as observed through the library. *)
Theorem C41_multiplicative (N : Num) (HO : OrdFieldLaws N) : @neps N = n0 -> forall n a b (A B : SparseI N), 0 < n ->
  holds A n n a -> holds B n n b ->
  exists C x y, s_mul A B = Ok C /\ det_sparse A = Ok x /\ det_sparse B = Ok y /\ det_sparse C = Ok (x * y)%num.
Proof.
  intros He n a b A B Hn HA HB. pose proof (of_field N HO) as HF.
  destruct (ol_mul _ (sparse_ops_laws N HF) A B n n n a b Hn Hn Hn HA HB) as (C & E & HC). exists C, (det n a), (det n b).
  split; auto. destruct (C41_exact N HO He n a Hn) as [_ ->]; auto. destruct (C41_exact N HO He n b Hn) as [_ ->]; auto.
  split; auto. split; auto. destruct (C41_exact N HO He n (prod2 n a b) Hn) as [_ H]. rewrite (H C HC). f_equal.
  apply (det_mult HF).
Qed.
Theorem C41_row_exchange (N : Num) (HO : OrdFieldLaws N) : @neps N = n0 -> forall n a (A B : DenseI N) p q, 0 < n -> p < n -> q < n -> p <> q ->
  holds A n n a -> holds B n n (swap_rows p q a) ->
  exists x, det_dense A = Ok x /\ det_dense B = Ok (- x)%num.
Proof.
  intros He n a A B p q Hn Hp Hq Hne HA HB. exists (det n a).
  destruct (C41_exact N HO He n a Hn) as [H1 _]. destruct (C41_exact N HO He n (swap_rows p q a) Hn) as [H2 _].
  split; [apply (H1 A HA)|]. rewrite (proj1 (H2 B HB)). f_equal. now apply (det_swap_rows (of_field N HO)).
Qed.
(** With a positive epsilon it is the determinant, or 0 for a matrix close to a singular one ... *)
Theorem C41_threshold_partial (N : Num) (HF : FieldLaws N) : tiny (@n0 N) = true -> forall n a, 0 < n ->
  (forall A : DenseI N, holds A n n a -> returns (det_dense A) (fun d => d = det n a \/ d = n0 /\ (OrdFieldLaws N -> near_singular n a)) /\
                                        returns (det_fixed A) (fun d => d = det n a \/ d = n0 /\ (OrdFieldLaws N -> near_singular n a))) /\
  (forall A : SparseI N, holds A n n a -> returns (det_sparse A) (fun d => d = det n a \/ d = n0 /\ (OrdFieldLaws N -> near_singular n a))).
Proof.
  intros Ht n a Hn. split; [intros A HA; split|intros A HA].
  - destruct (det_dense_ok HF Ht A n a Hn HA) as (d & E & H & _). exists d. auto.
  - destruct (det_fixed_ok HF Ht A n a Hn HA) as (d & E & H & _). exists d. auto.
  - destruct (det_sparse_ok HF Ht A n a Hn HA) as (d & E & H & _). exists d. auto.
Qed.
(** ... so it is exact for well-conditioned matrices, with any epsilon, ... *)
Theorem C41_well_conditioned (N : Num) (HO : OrdFieldLaws N) : forall n a x, 0 < n -> inverse_of n a x ->
  (forall i, i < n -> nltb (neps * bigsum n (fun k => nabs (x i k)))%num n1 = true) ->
  (forall A : DenseI N, holds A n n a -> det_dense A = Ok (det n a) /\ det_fixed A = Ok (det n a)) /\
  (forall A : SparseI N, holds A n n a -> det_sparse A = Ok (det n a)).
Proof.
  intros n a x Hn [Hx _] Hb. pose proof (well_conditioned HO n a x Hx Hb) as Hw.
  destruct (C41_threshold_partial N (of_field N HO) (ord_tiny N HO) n a Hn) as [H1 H2]. split; [intros A HA; split|intros A HA].
  - destruct (H1 A HA) as [(d & -> & [->|[_ H]]) _]; auto. now elim Hw; apply H.
  - destruct (H1 A HA) as [_ (d & -> & [->|[_ H]])]; auto. now elim Hw; apply H.
  - destruct (H2 A HA) as (d & -> & [->|[_ H]]); auto. now elim Hw; apply H.
Qed.
(** ... [BUG] but it is 0 for some regular matrices: diag(2^-53, 1) with the epsilon of double. *)
Theorem C41_threshold_refuted :
  (let* A := d_of_list ([[Qcanon.Q2Qc (1 # 2^53); qz 0]; [qz 0; qz 1]] : list (list NumQc)) in
   let* d := det_dense A in Ok (Qcanon.this d)) = Ok 0%Q.
Proof. vm_compute. reflexivity. Qed.
Example C41_example :
  (let* A := s_of_list ex36 in let* d := det_sparse (N := Qe) A in Ok (Qcanon.this d)) = Ok (-2)%Q /\ @neps Qe = n0 /\
  (let* A := s_of_list ([[qz 1; qz 2]; [qz 2; qz 4]] : list (list Qe)) in let* d := det_sparse (N := Qe) A in Ok (Qcanon.this d)) = Ok 0%Q.
Proof. split; [vm_compute; reflexivity|]. split; [reflexivity|vm_compute; reflexivity]. Qed.

(** ** C42.  The sparse inverse is the two-sided inverse; it throws only when the matrix is singular (exact
    arithmetic). *)
Theorem C42_sparse_partial (N : Num) (HF : FieldLaws N) : tiny (@n0 N) = true -> forall (A : SparseI N) n a, 0 < n -> holds A n n a ->
  post (inverse_sparse A) (fun X => det n a <> n0 /\ exists x, holds (X : SparseI N) n n x /\ inverse_of n a x)
    (fun e => e = Singular /\ (OrdFieldLaws N -> (nleb (nabs n1) (@neps N) = true \/ near_singular n a) /\ (@neps N = n0 -> det n a = n0))).
Proof. intros Ht A n a. exact (inverse_sparse_ok HF Ht A n a). Qed.
(** For a well-conditioned matrix the sparse inverse succeeds and is the inverse. *)
Theorem C42_well_conditioned (N : Num) (HO : OrdFieldLaws N) : forall n a x (A : SparseI N), 0 < n -> holds A n n a -> inverse_of n a x ->
  (forall i, i < n -> nltb (neps * bigsum n (fun k => nabs (x i k)))%num n1 = true) -> nltb (@neps N) n1 = true ->
  returns (inverse_sparse A) (fun X => holds (X : SparseI N) n n x).
Proof.
  intros n a x A Hn HA [Hx Hx'] Hb He. pose proof (well_conditioned HO n a x Hx Hb) as Hw. pose proof (of_field N HO) as HF.
  destruct (post_returns _ _ _ (C42_sparse_partial N HF (ord_tiny N HO) A n a Hn HA)) as (X & E & _ & y & HX & _ & Hy).
  - intros e [_ H]. destruct (H HO) as [[H1|H1] _]; [|now apply Hw]. rewrite (of_abs_pos N HO) in H1 by apply (olt_le HO), (olt_0_1 HO).
    apply (olt_iff HO) in He. now apply He.
  - exists X. split; auto. eapply holds_ext; [exact HX|]. intros i j Hi Hj. exact (inverse_unique HF n a x y Hx Hy i j Hi Hj).
Qed.
(** inverse(L,U,P) of a decomposition P*A = L*U of A is the two-sided inverse of A, for dense and sparse. *)
Theorem C42_from_factors_partial (N : Num) : tiny (@n0 N) = true -> forall M, library_rows N M -> forall (L U P : M) n a l u p cnt, 0 < n ->
  holds L n n l -> holds U n n u -> holds P n n p -> plu n a l u p cnt ->
  post (inverse3 L U P) (fun X => exists x, holds X n n x /\ inverse_of n a x)
    (fun e => e = Singular /\ (tiny (@n1 N) = true \/ exists i, i < n /\ tiny (u i i) = true)).
Proof.
  intros Ht M HM L U P n a l u p cnt Hn H1 H2 H3 H4. apply lr_laws in HM as [HR HF].
  eapply post_mono; [exact (inverse3_plu HF Ht HR L U P n a l u p cnt Hn H1 H2 H3 H4)| |auto].
  intros X (_ & HX). exact HX.
Qed.
(** What the dense inverse returns: A*X is, row by row, the row permutation matrix filled up with the entries of
    A itself ... *)
Theorem C42_dense_partial (N : Num) (HF : FieldLaws N) : tiny (@n0 N) = true -> forall (A : DenseI N) n a, 0 < n -> holds A n n a ->
  post (inverse_dense A) (fun X => det n a <> n0 /\ exists x rt cnt, holds (X : DenseI N) n n x /\ exchanges n rt cnt /\
      forall i j, i < n -> j < n ->
        bigsum n (fun k => a (nth i rt 0) k * x k j)%num = if j =? nth i rt 0 then n1 else a i j)
    (fun e => e = Singular /\ (OrdFieldLaws N -> (nleb (nabs n1) (@neps N) = true \/ near_singular n a) /\ (@neps N = n0 -> det n a = n0))).
Proof. intros Ht A n a. exact (inverse_dense_ok HF Ht A n a). Qed.
(** ... so it is the inverse only when A has a single non-zero entry per row (at the pivots) ... *)
Theorem C42_dense_only_monomial_refuted (N : Num) (HF : FieldLaws N) : tiny (@n0 N) = true -> forall (A : DenseI N) n a X x, 0 < n -> holds A n n a ->
  inverse_dense A = Ok X -> holds (X : DenseI N) n n x -> inverse_of n a x ->
  exists p, Permutation p (seq 0 n) /\ forall i j, i < n -> j < n -> j <> nth i p 0 -> a i j = n0.
Proof.
  intros Ht A n a X x Hn HA E HX [H1 _]. pose proof (inverse_dense_ok HF Ht A n a Hn HA) as H. rewrite E in H. cbn [post] in H.
  destruct H as (_ & x' & rt & cnt & HX' & He & H). exists rt. pose proof (exchanges_perm _ _ _ He) as Hp. split; auto.
  intros i j Hi Hj Hne. pose proof (perm_lt rt n i Hp Hi) as Hr. specialize (H i j Hi Hj). rewrite (proj2 (Nat.eqb_neq j (nth i rt 0)) Hne) in H.
  rewrite <- H. rewrite (bigsum_ext n _ (fun k => a (nth i rt 0) k * x k j)%num).
  - rewrite (H1 (nth i rt 0) j Hr Hj). destruct (Nat.eqb_spec (nth i rt 0) j); [congruence|reflexivity].
  - intros k Hk. f_equal. pose proof (holds_at (I := DenseI N) _ _ _ _ k j HX Hk Hj) as E1.
    pose proof (holds_at (I := DenseI N) _ _ _ _ k j HX' Hk Hj) as E2. rewrite E1 in E2. congruence.
Qed.
(** ... [BUG] for instance here, where the right inverse is ((3,1,-1),(-2,-2,3/2),(0,1,-1/2)). *)
Theorem C42_dense_refuted :
  (let* A := d_of_list ex36 in let* r := inverse_dense (N := Qe) A in Ok (show (dv r))) =
    Ok [6; 9; 22; -17 # 2; -13 # 2; -49 # 2; 7 # 2; 1 # 2; 15 # 2]%Q.
Proof. vm_compute. reflexivity. Qed.
(** inverse(L,U) inverts L*U when both factors have a unit diagonal ... *)
Theorem C42_unit_factors_partial (N : Num) : tiny (@n1 N) = false -> forall M, library_rows N M -> forall (L U : M) n l u, 0 < n ->
  holds L n n l -> holds U n n u -> (forall i, i < n -> l i i = n1) -> (forall i, i < n -> u i i = n1) ->
  returns (inverse2 L U) (fun X => exists x, holds X n n x /\ forall i j, i < n -> j < n ->
     bigsum n (fun r => lo_part l i r * bigsum n (fun k => up_part u r k * x k j))%num = if i =? j then n1 else n0).
Proof. intros Ht1 M HM L U n l u Hn H1 H2. apply lr_laws in HM as [HR HF]. exact (inverse2_unit HR HF L U n l u Hn H1 H2 Ht1). Qed.
(** ... [BUG] but not otherwise: it divides x(j,j) instead of x(j,i).  L = 1, U = ((2,2),(0,2)): the right inverse is
    ((1/2,-1/2),(0,1/2)). *)
Theorem C42_factors_refuted :
  (let* L := d_of_list ([[qz 1; qz 0]; [qz 0; qz 1]] : list (list Qe)) in
   let* U := d_of_list ([[qz 2; qz 2]; [qz 0; qz 2]] : list (list Qe)) in
   let* r := @inverse2 Qe (DenseR Qe) L U in Ok (show (dv r))) = Ok [1 # 4; -1; 0; 1 # 2]%Q.
Proof. vm_compute. reflexivity. Qed.
Example C42_example :
  (let* A := s_of_list ex36 in let* r := inverse_sparse (N := Qe) A in Ok (show (sv r), sc r)) =
  Ok ([3; 1; -1; -2; -2; 3 # 2; 1; -1 # 2]%Q, [0; 1; 2; 0; 1; 2; 1; 2]).
Proof. vm_compute. reflexivity. Qed.
