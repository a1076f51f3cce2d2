(** Property C69: the entry norms max_norm2, min_norm2 and cond; inequalities of the vector norm (C23).
    [holds m d1 d2 a]: rows(), columns() and at(i,j) of m answer like the table a. *)
From Coq Require Import List Arith Bool ZArith QArith Lia Reals Lra.
From Verif Require Import Base BaseProofs Num NumInst OrdField Spec VectorModel VectorSpec SparseModel DenseModel
  MatI MatIProofs MatOps LUModel LUSolve ExampleBase PropConstruct PropLU NormProofs NormResult.
Import ListNotations.
Local Open Scope nat_scope.
Open Scope res_scope.

(** ** C69 *)
(** max_norm2 is the Euclidean norm of the vector of the largest absolute values of the rows, whatever the
    representation of the matrix. *)
Theorem C69_max_norm2 (N : Num) (HO : OrdFieldLaws N) : forall M, library_rows N M -> forall (m : M) d1 d2 a,
  0 < d2 -> holds m d1 d2 a ->
  exists f, (forall i, i < d1 -> largest (map (fun j => nabs (a i j)) (seq 0 d2)) (f i)) /\
            max_norm2 m = Ok (nsqrt (bigsum d1 (fun i => f i * f i)%num)).
Proof. intros M HM m d1 d2 a Hd Hm. exact (max_norm_rows HO (proj1 (lr_laws N M HM)) m d1 d2 a Hd Hm). Qed.
(** It is a norm: it never fails, is nonnegative, ... *)
Theorem C69_nonnegative (N : Num) (HO : OrdFieldLaws N) (HS : SqrtLaws N) : forall M, library_rows N M -> forall (m : M) d1 d2 a,
  0 < d2 -> holds m d1 d2 a -> exists v, max_norm2 m = Ok v /\ nleb n0 v = true.
Proof. intros M HM. exact (max_nonneg HO HS (proj1 (lr_laws N M HM))). Qed.
(** ... vanishes for the zero matrix only, ... *)
Theorem C69_definite (N : Num) (HO : OrdFieldLaws N) (HS : SqrtLaws N) : forall M, library_rows N M -> forall (m : M) d1 d2 a,
  0 < d2 -> holds m d1 d2 a -> (max_norm2 m = Ok n0 <-> forall i j, i < d1 -> j < d2 -> a i j = n0).
Proof. intros M HM. exact (max_definite HO HS (proj1 (lr_laws N M HM))). Qed.
(** ... is homogeneous ... *)
Theorem C69_homogeneous (N : Num) (HO : OrdFieldLaws N) (HS : SqrtLaws N) : forall M, library_rows N M -> forall (m m' : M) d1 d2 a c v,
  0 < d2 -> holds m d1 d2 a -> holds m' d1 d2 (fun i j => c * a i j)%num -> max_norm2 m = Ok v -> max_norm2 m' = Ok (nabs c * v)%num.
Proof. intros M HM. exact (max_scale HO HS (proj1 (lr_laws N M HM))). Qed.
(** ... and satisfies the triangle inequality. *)
Theorem C69_triangle (N : Num) (HO : OrdFieldLaws N) (HS : SqrtLaws N) : forall M, library_rows N M -> forall (A B C : M) d1 d2 a b u v w,
  0 < d2 -> holds A d1 d2 a -> holds B d1 d2 b -> holds C d1 d2 (fun i j => a i j + b i j)%num ->
  max_norm2 A = Ok u -> max_norm2 B = Ok v -> max_norm2 C = Ok w -> nleb w (u + v)%num = true.
Proof. intros M HM. exact (max_triangle HO HS (proj1 (lr_laws N M HM))). Qed.
(** It bounds every entry, and the product with a vector: |A x| <= max_norm2(A) * (|x_0| + |x_1| + ...). *)
Theorem C69_entry_bound (N : Num) (HO : OrdFieldLaws N) (HS : SqrtLaws N) : forall M, library_rows N M -> forall (m : M) d1 d2 a v i j,
  holds m d1 d2 a -> max_norm2 m = Ok v -> i < d1 -> j < d2 -> nleb (nabs (a i j)) v = true.
Proof. intros M HM. exact (max_entry HO HS (proj1 (lr_laws N M HM))). Qed.
Theorem C69_product_bound (N : Num) (HO : OrdFieldLaws N) (HS : SqrtLaws N) : forall M, library_rows N M ->
  forall (A : M) d1 d2 a (x y : list N) v t, 0 < d2 -> holds A d1 d2 a -> length x = d2 ->
  max_norm2 A = Ok v -> mo_mulv A x = Ok y -> v_mag y = Ok t ->
  nleb t (v * bigsum d2 (fun j => nabs (nth j x n0)))%num = true.
Proof. intros M HM. exact (max_mulv HO HS (proj1 (lr_laws N M HM))). Qed.

(** min_norm2 of a dense matrix: the norm of the vector of the smallest absolute values of the rows. *)
Theorem C69_min_norm2_dense (N : Num) (HO : OrdFieldLaws N) : forall (m : DenseR N) d1 d2 a, holds m d1 d2 a ->
  (forall i, i < d1 -> exists j, j < d2 /\ nleb (nabs (a i j)) nmax = true) ->
  exists f, (forall i, i < d1 -> smallest (map (fun j => nabs (a i j)) (seq 0 d2)) (f i)) /\
            min_norm2 (M := DenseR N) m = Ok (nsqrt (bigsum d1 (fun i => f i * f i)%num)).
Proof. exact (min_dense HO). Qed.
(** Of a sparse matrix: the smallest among the entries different from 0; a row without such an entry counts
    with the largest finite number. *)
Theorem C69_min_norm2_sparse_partial (N : Num) (HO : OrdFieldLaws N) : forall (m : SparseR N) d1 d2 a, holds m d1 d2 a ->
  exists f, (forall i, i < d1 ->
      let nonzero := filter (fun x => negb (neqb x n0)) (map (fun j => nabs (a i j)) (seq 0 d2)) in
      (smallest nonzero (f i) \/ f i = nmax) /\
      ((exists x, In x nonzero /\ nleb x nmax = true) -> smallest nonzero (f i))) /\
    min_norm2 (M := SparseR N) m = Ok (nsqrt (bigsum d1 (fun i => f i * f i)%num)).
Proof. exact (min_sparse HO). Qed.
(** [BUG] So the dense and the sparse identity matrix have different min_norm2 and cond: 0 and infinity against
    sqrt 2 and 1; and a sparse matrix with an empty row has min_norm2 = infinity, cond = 0. *)
Definition ex69_s : res (smat NumF64) := let* A := s_new 2 2 in let* A := s_set A 0 0 (fz 1) in s_set A 1 1 (fz 1).
Theorem C69_min_norm2_refuted :
  (let* D := d_of_list ([[fz 1; fz 0]; [fz 0; fz 1]] : list (list NumF64)) in
   let* x := min_norm2 (M := DenseR NumF64) D in let* c := cond (M := DenseR NumF64) D in Ok (x, nisinf c)) = Ok (fz 0, true) /\
  (let* B := ex69_s in let* x := min_norm2 (M := SparseR NumF64) B in let* c := cond (M := SparseR NumF64) B in
   Ok (nltb (fz 1) x, c)) = Ok (true, fz 1) /\
  (let* A := s_new 2 2 in let* A := s_set A 0 0 (fz 1) in
   let* x := min_norm2 (M := SparseR NumF64) A in let* c := cond (M := SparseR NumF64) A in Ok (nisinf x, c)) = Ok (true, fz 0).
Proof. repeat split; vm_compute; reflexivity. Qed.
(** cond is at least 1 when every row has an entry different from 0 and min_norm2 does not vanish. *)
Theorem C69_cond_partial (N : Num) (HO : OrdFieldLaws N) (HS : SqrtLaws N) : forall M, library_rows N M -> forall (m : M) d1 d2 a w,
  0 < d2 -> holds m d1 d2 a -> (forall i, i < d1 -> exists j, j < d2 /\ a i j <> n0 /\ nleb (nabs (a i j)) nmax = true) ->
  min_norm2 m = Ok w -> w <> n0 -> exists v c, max_norm2 m = Ok v /\ cond m = Ok c /\ c = (v / w)%num /\ nleb n1 c = true.
Proof.
  intros M HM m d1 d2 a w Hd Hm H Ew Hw. destruct (max_nonneg HO HS (proj1 (lr_laws N M HM)) m d1 d2 a Hd Hm) as (v & Ev & _).
  exists v, (v / w)%num. split; [exact Ev|]. assert (E : cond m = Ok (v / w)%num) by (unfold cond; now rewrite Ev, Ew).
  split; [exact E|]. split; [reflexivity|].
  assert (G : exists c, cond m = Ok c /\ nleb n1 c = true).
  { destruct HM as [HF|HF]; [exact (cond_dense HO HS m d1 d2 a w Hd Hm H Ew Hw)|exact (cond_sparse HO HS m d1 d2 a w Hd Hm H Ew Hw)]. }
  destruct G as (c & Ec & Hc). rewrite E in Ec. injection Ec as <-. exact Hc.
Qed.
Example C69_example :
  (let* D := d_of_list ([[fz 3; fz (-1)]; [fz 1; fz (-4)]] : list (list NumF64)) in
   let* x := max_norm2 (M := DenseR NumF64) D in let* y := min_norm2 (M := DenseR NumF64) D in
   let* c := cond (M := DenseR NumF64) D in Ok (x, nltb (fz 1) y, nltb (fz 1) c)) = Ok (fz 5, true, true) /\
  (let* B := ex69_s in let* B := s_set B 1 0 (fz (-7)) in max_norm2 (M := SparseR NumF64) B) = Ok (nsqrt (fz 50)).
Proof. split; vm_compute; reflexivity. Qed.
(** The hypotheses are met by real 2x2 matrices, with an entry table that is not constant. *)
Example C69_example_hypotheses : SqrtLaws NumR /\ OrdFieldLaws NumR /\ library_rows NumR (DenseR NumR) /\ library_rows NumR (SparseR NumR) /\
  (exists m : DenseR NumR, holds m 2 2 ex37) /\ (exists m : SparseR NumR, holds m 2 2 ex37) /\
  (forall i, i < 2 -> exists j, j < 2 /\ ex37 i j <> n0 /\ nleb (nabs (ex37 i j)) nmax = true).
Proof.
  assert (B : forall I : MatI NumR, MatLaws I -> exists m : I, holds m 2 2 ex37).
  { intros I HI. destruct (ml_new I HI 2 2) as (m0 & _ & H0); try lia.
    destruct (holds_set HI m0 2 2 _ 0 0 2%R H0) as (m1 & _ & H1); try lia.
    destruct (holds_set HI m1 2 2 _ 0 1 1%R H1) as (m2 & _ & H2); try lia.
    destruct (holds_set HI m2 2 2 _ 1 0 1%R H2) as (m3 & _ & H3); try lia.
    destruct (holds_set HI m3 2 2 _ 1 1 2%R H3) as (m4 & _ & H4); try lia.
    exists m4. eapply holds_ext; [exact H4|]. intros i j Hi Hj. unfold ex37, put2.
    assert (i = 0 \/ i = 1) as [-> | ->] by lia; assert (j = 0 \/ j = 1) as [-> | ->] by lia; reflexivity. }
  split; [exact NumR_sqrt|]. split; [exact NumR_ord|]. split; [exact (lr_dense NumR NumR_field)|]. split; [exact (lr_sparse NumR NumR_field)|].
  split; [apply (B (DenseR NumR)); apply (ol_mat _ (rl_ops _ (dense_rows NumR NumR_field)))|].
  split; [apply (B (SparseR NumR)); apply (ol_mat _ (rl_ops _ (sparse_rows NumR NumR_field)))|].
  intros i Hi. exists 0. split; [lia|].
  assert (H : ex37 i 0 = 1%R \/ ex37 i 0 = 2%R) by (unfold ex37; destruct (i =? 0); auto).
  assert (Hm : (2 <= ((2 ^ 53 - 1) * 2 ^ 971))%R).
  { assert (1 <= 2 ^ 971)%R by (apply pow_R1_Rle; lra). assert (4 <= 2 ^ 53)%R by (change 53 with (2 + 51); rewrite pow_add; assert (1 <= 2 ^ 51)%R by (apply pow_R1_Rle; lra); lra). nra. }
  split; [cbn; destruct H as [-> | ->]; lra|]. cbn [nleb nabs nmax NumR]. apply Rle_bool_iff.
  destruct H as [-> | ->]; rewrite Rabs_right by lra; lra.
Qed.

(** ** C23, continued: the inequalities of dot() and mag() *)
Theorem C23_cauchy_schwarz (N : Num) (HO : OrdFieldLaws N) (HS : SqrtLaws N) : forall (v w : list N) d p q,
  length v = length w -> v_dot v w = Ok d -> v_mag v = Ok p -> v_mag w = Ok q -> nleb (nabs d) (p * q)%num = true.
Proof. exact (v_cauchy HO HS). Qed.
Theorem C23_triangle (N : Num) (HO : OrdFieldLaws N) (HS : SqrtLaws N) : forall (v w s : list N) p q t,
  v_add v w = Ok s -> v_mag v = Ok p -> v_mag w = Ok q -> v_mag s = Ok t -> nleb t (p + q)%num = true.
Proof. exact (v_triangle HO HS). Qed.
Example C23_inequalities_example : (let* s := v_add [fz 3; fz 0] [fz 0; fz 4] in let* t := v_mag s in
  let* p := v_mag [fz 3; fz 0] in let* q := v_mag [fz 0; fz 4] in Ok (p, q, t)) = Ok (fz 3, fz 4, fz 5) /\
  v_dot [fz 3; fz 0] [fz 0; fz 4] = Ok (fz 0).
Proof. split; vm_compute; reflexivity. Qed.
