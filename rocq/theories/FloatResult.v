(** The floating point properties of the public operations. *)
From Coq Require Import ZArith Reals List Arith SpecFloat Lia Lra.
From Flocq Require Import Core.
From Verif Require Import Base BaseProofs Num NumInst Spec SpecProofs VectorModel VectorSpec VectorProofs VectorPropProofs
  SparseModel SparseSpec SparsePropProofs DenseModel DenseSpec DensePropProofs FloatSpec F64Flocq FloatProofs.
Import ListNotations.
Local Open Scope nat_scope.
Open Scope res_scope.

Lemma zlist_ext {A} (l : list A) f g : (forall i, In i l -> f i = g i) -> zlist l f = zlist l g.
Proof. induction l as [|i t IH]; simpl; intros H; auto. rewrite H, IH; auto. Qed.
Lemma nth_map_seq0 {A} (f : nat -> A) n i d : i < n -> nth i (map f (seq 0 n)) d = f i.
Proof. apply nth_map_seq. Qed.
Lemma zip_nth (op : NumF64 -> NumF64 -> NumF64) : forall v w i, length v = length w -> i < length v ->
  nth i (zip op v w) n0 = op (nth i v n0) (nth i w n0).
Proof.
  unfold zip. induction v as [|x v IH]; intros [|y w] i H Hi; simpl in *; try lia. destruct i; [reflexivity|]. apply IH; lia.
Qed.
Lemma zip_length (op : NumF64 -> NumF64 -> NumF64) v w : length v = length w -> length (zip op v w) = length v.
Proof. intros H. unfold zip. rewrite map_length, combine_length. lia. Qed.
Lemma map_nth0 (f : NumF64 -> NumF64) v i : i < length v -> nth i (map f v) n0 = f (nth i v n0).
Proof. intros H. rewrite (nth_indep _ n0 (f n0)) by now rewrite map_length. apply map_nth. Qed.

Lemma ints_dot n x y a b : (forall i, i < n -> is_int (x i) (a i)) -> (forall i, i < n -> is_int (y i) (b i)) ->
  (zsum n (fun i => Z.abs (a i * b i)) <= 2 ^ 53)%Z -> is_int (bigsum n (fun i => x i * y i)%num) (zsum n (fun i => a i * b i)%Z).
Proof.
  intros H1 H2 B. rewrite bigsum_acc, <- zlist_seq. apply dot_int; [|now rewrite zlist_seq].
  intros i Hi. apply in_seq in Hi. split; [apply H1|apply H2]; lia.
Qed.
Lemma ints_sum n x a : (forall i, i < n -> is_int (x i) (a i)) ->
  (zsum n (fun i => Z.abs (a i)) <= 2 ^ 53)%Z -> is_int (bigsum n x) (zsum n a).
Proof.
  intros H1 B. rewrite bigsum_acc, <- zlist_seq. apply acc_int; [|now rewrite zlist_seq].
  intros i Hi. apply in_seq in Hi. apply H1; lia.
Qed.
Lemma sparse_dot_acc d (x y : nat -> NumF64) :
  sparse_dot d x y = acc (filter (fun j => negb (is0 (x j))) (seq 0 d)) (fun j => x j * y j)%num.
Proof. reflexivity. Qed.
Lemma int_is0 x z : is_int x z -> is0 x = true -> z = 0%Z.
Proof. intros [D [F R]] E. apply is0_real in E. rewrite R in E. apply eq_IZR. tauto. Qed.
Lemma ints_sparse_dot n x y a b : (forall i, i < n -> is_int (x i) (a i)) -> (forall i, i < n -> is_int (y i) (b i)) ->
  (zsum n (fun i => Z.abs (a i * b i)) <= 2 ^ 53)%Z -> is_int (sparse_dot n x y) (zsum n (fun i => a i * b i)%Z).
Proof.
  intros H1 H2 B. rewrite sparse_dot_acc, <- zlist_seq.
  assert (Z0 : forall i, In i (seq 0 n) -> negb (is0 (x i)) = false -> a i = 0%Z).
  { intros i Hi E. apply in_seq in Hi. apply (int_is0 (x i)); [apply H1; lia|]. now destruct (is0 (x i)). }
  rewrite <- (zlist_filter (seq 0 n) (fun j => negb (is0 (x j))) (fun i => a i * b i)%Z) by (intros i Hi E; rewrite (Z0 i Hi E); lia).
  apply dot_int.
  - intros i Hi. apply filter_In in Hi. destruct Hi as [Hi _]. apply in_seq in Hi. split; [apply H1|apply H2]; lia.
  - rewrite zlist_filter by (intros i Hi E; rewrite (Z0 i Hi E); lia). now rewrite zlist_seq.
Qed.

(** ** Integers *)
Lemma int_vector v w a b n : length v = n -> length w = n ->
  (forall i, i < n -> is_int (nth i v n0) (a i)) -> (forall i, i < n -> is_int (nth i w n0) (b i)) ->
  ((zsum n (fun i => Z.abs (a i)) <= 2 ^ 53)%Z -> exists r, v_sum v = Ok r /\ is_int r (zsum n a)) /\
  ((zsum n (fun i => Z.abs (a i * b i)) <= 2 ^ 53)%Z -> exists r, v_dot v w = Ok r /\ is_int r (zsum n (fun i => a i * b i)%Z)) /\
  ((forall i, i < n -> (Z.abs (a i + b i) <= 2 ^ 53)%Z) ->
     exists r, v_add v w = Ok r /\ length r = n /\ forall i, i < n -> is_int (nth i r n0) (a i + b i)) /\
  ((forall i, i < n -> (Z.abs (a i - b i) <= 2 ^ 53)%Z) ->
     exists r, v_sub v w = Ok r /\ length r = n /\ forall i, i < n -> is_int (nth i r n0) (a i - b i)) /\
  ((forall i, i < n -> (Z.abs (a i * b i) <= 2 ^ 53)%Z) ->
     exists r, v_mul v w = Ok r /\ length r = n /\ forall i, i < n -> is_int (nth i r n0) (a i * b i)) /\
  (forall f c, is_int f c -> (forall i, i < n -> (Z.abs (a i * c) <= 2 ^ 53)%Z) ->
     exists r, v_scale v f = Ok r /\ length r = n /\ forall i, i < n -> is_int (nth i r n0) (a i * c)).
Proof.
  intros Lv Lw Hv Hw. assert (L : length v = length w) by congruence.
  split; [|split; [|split; [|split; [|split]]]].
  - intros B. exists (bigsum (length v) (fun i => nth i v n0)). split; [apply sum_bigsum|]. rewrite Lv. now apply ints_sum.
  - intros B. eexists. split; [apply (dot_ok v w L)|]. rewrite Lv. now apply ints_dot.
  - intros B. exists (zip nadd v w). split; [now apply inplace_ok|]. split; [rewrite zip_length; auto|].
    intros i Hi. rewrite zip_nth by lia. apply int_add; auto.
  - intros B. exists (zip nsub v w). split; [now apply inplace_ok|]. split; [rewrite zip_length; auto|].
    intros i Hi. rewrite zip_nth by lia. apply int_sub; auto.
  - intros B. exists (zip nmul v w). split; [now apply inplace_ok|]. split; [rewrite zip_length; auto|].
    intros i Hi. rewrite zip_nth by lia. apply int_mul; auto.
  - intros f c Hf B. eexists. split; [apply scalar_ok|]. split; [now rewrite map_length|].
    intros i Hi. rewrite (map_nth0 (fun x => nmul x f)) by lia. apply int_mul; auto.
Qed.


Lemma int_dense A B d1 d2 d3 a b p q : dbuilt A -> dbuilt B -> dreads A d1 d2 a -> dreads B d2 d3 b -> ints d1 d2 a p -> ints d2 d3 b q ->
  (forall i k, i < d1 -> k < d3 -> (zsum d2 (fun j => Z.abs (p i j * q j k)) <= 2 ^ 53)%Z) ->
  exists C c, d_fixed_mul A B = Ok C /\ (0 < d1 -> 0 < d3 -> d_mul A B = Ok C) /\ dreads C d1 d3 c /\
    ints d1 d3 c (fun i k => zsum d2 (fun j => p i j * q j k)%Z).
Proof.
  intros HA HB RA RB IA IB B0. destruct (pd_mul _ A B d1 d2 d3 a b HA HB RA RB) as (C & E1 & _ & R & E2).
  exists C, (prod2 d2 a b). split; auto. split; auto. split; auto.
  intros i k Hi Hk. apply ints_dot; auto.
Qed.
Lemma int_dense_ops A B d1 d2 a b p q : dbuilt A -> dbuilt B -> dreads A d1 d2 a -> dreads B d1 d2 b -> ints d1 d2 a p -> ints d1 d2 b q ->
  ((forall i j, i < d1 -> j < d2 -> (Z.abs (p i j + q i j) <= 2 ^ 53)%Z) ->
     exists C c, d_add A B = Ok C /\ dreads C d1 d2 c /\ ints d1 d2 c (fun i j => p i j + q i j)%Z) /\
  ((forall i j, i < d1 -> j < d2 -> (Z.abs (p i j - q i j) <= 2 ^ 53)%Z) ->
     exists C c, d_sub A B = Ok C /\ dreads C d1 d2 c /\ ints d1 d2 c (fun i j => p i j - q i j)%Z) /\
  (forall f z, is_int f z -> (forall i j, i < d1 -> j < d2 -> (Z.abs (p i j * z) <= 2 ^ 53)%Z) ->
     exists C c, d_scale A f = Ok C /\ dreads C d1 d2 c /\ ints d1 d2 c (fun i j => p i j * z)%Z) /\
  (forall v t, length v = d2 -> (forall j, j < d2 -> is_int (nth j v n0) (t j)) ->
     (forall i, i < d1 -> (zsum d2 (fun j => Z.abs (p i j * t j)) <= 2 ^ 53)%Z) ->
     exists r, d_mulv A v = Ok r /\ length r = d1 /\ forall i, i < d1 -> is_int (nth i r n0) (zsum d2 (fun j => p i j * t j)%Z)) /\
  ((zsum (Nat.min d1 d2) (fun i => Z.abs (p i i)) <= 2 ^ 53)%Z ->
     exists r, d_trace A = Ok r /\ is_int r (zsum (Nat.min d1 d2) (fun i => p i i))).
Proof.
  intros HA HB RA RB IA IB. destruct (pd_ops _ A B d1 d2 a b HA HB RA RB) as ((C1 & E1 & _ & _ & R1) & (C2 & E2 & _ & _ & R2) & _).
  split; [|split; [|split; [|split]]].
  - intros H. exists C1, (fun i j => a i j + b i j)%num. split; auto. split; auto. intros i j Hi Hj. apply int_add; auto.
  - intros H. exists C2, (fun i j => a i j - b i j)%num. split; auto. split; auto. intros i j Hi Hj. apply int_sub; auto.
  - intros f z Hf H. destruct (pd_scale _ A d1 d2 a f HA RA) as (C & E & _ & _ & R).
    exists C, (fun i j => a i j * f)%num. split; auto. split; auto. intros i j Hi Hj. apply int_mul; auto.
  - intros v t Lv Hv H. destruct (pd_mulv _ A d1 d2 a RA v) as (E & _). eexists. split; [now apply E|].
    split; [now rewrite map_length, seq_length|]. intros i Hi. rewrite nth_map_seq by auto. apply ints_dot; auto.
  - intros H. pose proof (pd_trace _ A d1 d2 a RA) as E. eexists. split; [apply E|]. apply ints_sum; auto. intros i Hi. apply IA; lia.
Qed.

Lemma int_sparse A B d1 d2 d3 a b p q : built A -> built B -> reads A d1 d2 a -> reads B d2 d3 b -> ints d1 d2 a p -> ints d2 d3 b q ->
  (forall i k, i < d1 -> k < d3 -> (zsum d2 (fun j => Z.abs (p i j * q j k)) <= 2 ^ 53)%Z) ->
  exists C c, s_mul A B = Ok C /\ reads C d1 d3 c /\ ints d1 d3 c (fun i k => zsum d2 (fun j => p i j * q j k)%Z).
Proof.
  intros HA HB RA RB IA IB B0. destruct (mul_general _ NumF64_zero_laws d1 d2 d3 a b A B HA HB RA RB) as (C & E1 & _ & R).
  exists C. eexists. split; [exact E1|]. split; [exact R|]. intros i k Hi Hk. apply norm0_int, ints_sparse_dot; auto.
Qed.
Lemma int_sparse_ops A B d1 d2 a b p q : built A -> built B -> reads A d1 d2 a -> reads B d1 d2 b -> ints d1 d2 a p -> ints d1 d2 b q ->
  ((forall i j, i < d1 -> j < d2 -> (Z.abs (p i j + q i j) <= 2 ^ 53)%Z) ->
     exists C c, s_add A B = Ok C /\ reads C d1 d2 c /\ ints d1 d2 c (fun i j => p i j + q i j)%Z) /\
  ((forall i j, i < d1 -> j < d2 -> (Z.abs (p i j - q i j) <= 2 ^ 53)%Z) ->
     exists C c, s_sub A B = Ok C /\ reads C d1 d2 c /\ ints d1 d2 c (fun i j => p i j - q i j)%Z) /\
  (forall f z, is_int f z -> (forall i j, i < d1 -> j < d2 -> (Z.abs (p i j * z) <= 2 ^ 53)%Z) ->
     exists C c, s_scale A f = Ok C /\ reads C d1 d2 c /\ ints d1 d2 c (fun i j => p i j * z)%Z) /\
  (forall v t, length v = d2 -> (forall j, j < d2 -> is_int (nth j v n0) (t j)) ->
     (forall i, i < d1 -> (zsum d2 (fun j => Z.abs (p i j * t j)) <= 2 ^ 53)%Z) ->
     exists r, s_mulv A v = Ok r /\ length r = d1 /\ forall i, i < d1 -> is_int (nth i r n0) (zsum d2 (fun j => p i j * t j)%Z)) /\
  ((zsum (Nat.min d1 d2) (fun i => Z.abs (p i i)) <= 2 ^ 53)%Z ->
     exists r, s_trace A = Ok r /\ is_int r (zsum (Nat.min d1 d2) (fun i => p i i))).
Proof.
  intros HA HB RA RB IA IB.
  split; [|split; [|split; [|split]]].
  - intros H. destruct (add_entrywise _ NumF64_zero_laws d1 d2 a b A B HA HB RA RB) as (C & E & _ & _ & R).
    exists C. eexists. split; [exact E|]. split; [exact R|]. intros i j Hi Hj. apply norm0_int, int_add; auto.
  - intros H. destruct (sub_entrywise _ NumF64_zero_laws d1 d2 a b A B HA HB RA RB) as (C & E & _ & _ & R).
    exists C. eexists. split; [exact E|]. split; [exact R|]. intros i j Hi Hj. apply norm0_int, int_sub; auto.
  - intros f z Hf H. destruct (scale_entrywise _ NumF64_zero_laws d1 d2 a A f HA RA) as (C & E & _ & R & _).
    exists C. eexists. split; [exact E|]. split; [exact R|]. intros i j Hi Hj. cbv beta.
    destruct (is0 f) eqn:E1.
    { rewrite (int_is0 _ _ Hf E1), Z.mul_0_r. exact int_zero. }
    destruct (is0 (a i j)) eqn:E2.
    { rewrite (int_is0 _ _ (IA i j Hi Hj) E2), Z.mul_0_l. exact int_zero. }
    cbn [orb]. apply int_mul; auto.
  - intros v t Lv Hv H. destruct (mulv_general _ NumF64_zero_laws d1 d2 a A v HA RA) as (E & _). eexists. split; [now apply E|].
    split; [now rewrite map_length, seq_length|]. intros i Hi. rewrite nth_map_seq by auto. apply ints_sparse_dot; auto.
  - intros H. destruct (sum_trace_general _ NumF64_zero_laws d1 d2 a A HA RA) as (_ & E). eexists. split; [apply E|]. apply ints_sum; auto.
    intros i Hi. apply IA; lia.
Qed.

(** ** Rounding errors *)
Lemma err_dot n x y : (forall i, i < n -> double (x i) /\ double (y i)) -> finite (bigsum n (fun i => x i * y i)%num) ->
  (forall i, i < n -> finite (x i) /\ finite (y i)) /\
  (Rabs (real (bigsum n (fun i => x i * y i)%num) - rsum n (fun i => real (x i) * real (y i)))
    <= dot_bound n (rsum n (fun i => Rabs (real (x i) * real (y i)))))%R.
Proof.
  intros H F. rewrite bigsum_acc in *.
  destruct (dot_error (seq 0 n) x y) as [G E]; auto.
  { intros i Hi. apply in_seq in Hi. apply H. lia. }
  split; [intros i Hi; apply G, in_seq; lia|]. rewrite !rlist_seq, seq_length in E. exact E.
Qed.
Lemma nonzero_count_filter n (x : nat -> NumF64) : length (filter (fun j => negb (is0 (x j))) (seq 0 n)) = nonzero_count n x.
Proof.
  induction n as [|n IH]; [reflexivity|]. rewrite seq_S, filter_app, app_length, IH. cbn [nonzero_count filter plus]. unfold is0.
  destruct (neqb (x n) n0); reflexivity.
Qed.
Lemma err_sparse_dot n x y : (forall i, i < n -> double (x i) /\ double (y i)) -> finite (sparse_dot n x y) ->
  (Rabs (real (sparse_dot n x y) - rsum n (fun i => real (x i) * real (y i)))
    <= dot_bound (nonzero_count n x) (rsum n (fun i => Rabs (real (x i) * real (y i)))))%R.
Proof.
  intros H F. rewrite sparse_dot_acc in *. set (p := fun j => negb (is0 (x j))) in *.
  destruct (dot_error (filter p (seq 0 n)) x y) as [_ E]; auto.
  { intros i Hi. apply filter_In in Hi. destruct Hi as [Hi _]. apply in_seq in Hi. apply H. lia. }
  assert (Z0 : forall i, p i = false -> real (x i) = 0%R).
  { intros i Hp. apply is0_real. unfold p in Hp. now destruct (is0 (x i)). }
  rewrite (rlist_filter (seq 0 n) p (fun i => real (x i) * real (y i))%R) in E by (intros i _ Hp; rewrite Z0 by auto; ring).
  rewrite (rlist_filter (seq 0 n) p (fun i => Rabs (real (x i) * real (y i)))%R) in E
    by (intros i _ Hp; rewrite Z0 by auto; rewrite Rmult_0_l; apply Rabs_R0).
  rewrite !rlist_seq in E. unfold p in E. rewrite nonzero_count_filter in E. exact E.
Qed.
Lemma nearest_rnd r t : double r -> real r = rnd t -> nearest r t.
Proof.
  intros D E. split; [exact D|]. intros z Dz Fz. rewrite E. assert (P : Prec_gt_0 53) by reflexivity.
  destruct (round_N_pt radix2 fexp64 (fun x => negb (Z.even x)) t) as [_ H]. apply H. now apply real_format.
Qed.

Lemma err_vector v w n : length v = n -> length w = n -> doubles v -> doubles w ->
  (exists r, v_sum v = Ok r /\ (finite r -> (forall i, i < n -> finite (nth i v n0)) /\
     (Rabs (real r - rsum n (fun i => real (nth i v n0))) <= ((1 + u64) ^ (n - 1) - 1) * rsum n (fun i => Rabs (real (nth i v n0))))%R)) /\
  (exists r, v_dot v w = Ok r /\ (finite r -> (forall i, i < n -> finite (nth i v n0) /\ finite (nth i w n0)) /\
     (Rabs (real r - rsum n (fun i => real (nth i v n0) * real (nth i w n0)))
       <= dot_bound n (rsum n (fun i => Rabs (real (nth i v n0) * real (nth i w n0)))))%R)).
Proof.
  intros Lv Lw Dv Dw.
  assert (D : forall i, i < n -> double (nth i v n0) /\ double (nth i w n0)) by (intros i Hi; split; [apply Dv|apply Dw]; apply nth_In; lia).
  split.
  - eexists. split; [apply sum_bigsum|]. rewrite Lv, bigsum_acc. intros F.
    split; [intros i Hi; apply (acc_finite _ (fun i => nth i v n0) F), in_seq; lia|].
    pose proof (acc_error (seq 0 n) (fun i => nth i v n0)) as E. rewrite !rlist_seq, seq_length in E. apply E; auto.
    intros i Hi. apply in_seq in Hi. apply D. lia.
  - eexists. split; [apply dot_ok; congruence|]. rewrite Lv. now apply err_dot.
Qed.
Lemma total_vector v w n : length v = n -> length w = n -> doubles v -> doubles w ->
  (forall i, i < n -> finite (nth i v n0) /\ finite (nth i w n0)) ->
  ((1 + u64) ^ (n + 1) * (rsum n (fun i => Rabs (real (nth i v n0) * real (nth i w n0))) + INR n * eta64) < powerRZ 2 1024)%R ->
  exists r, v_dot v w = Ok r /\ double r /\ finite r.
Proof.
  intros Lv Lw Dv Dw F B. eexists. split; [apply dot_ok; congruence|]. rewrite Lv, bigsum_acc.
  assert (D : forall i, i < n -> double (nth i v n0) /\ double (nth i w n0)) by (intros i Hi; split; [apply Dv|apply Dw]; apply nth_In; lia).
  split.
  - apply acc_double. intros i Hi. apply in_seq in Hi. apply mul_double; apply D; lia.
  - apply dot_total.
    + intros i Hi. apply in_seq in Hi. destruct (D i), (F i); try lia. auto.
    + rewrite rlist_seq, seq_length, bpow_powerRZ. exact B.
Qed.
Lemma nearest_vector v w : length v = length w -> doubles v -> doubles w ->
  exists p q r d, v_add v w = Ok p /\ v_sub v w = Ok q /\ v_mul v w = Ok r /\ v_div v w = Ok d /\
  forall i, i < length v -> let x := nth i v n0 in let y := nth i w n0 in
    (finite (nth i p n0) -> finite x /\ finite y /\ nearest (nth i p n0) (real x + real y)) /\
    (finite (nth i q n0) -> finite x /\ finite y /\ nearest (nth i q n0) (real x - real y)) /\
    (finite (nth i r n0) -> finite x /\ finite y /\ nearest (nth i r n0) (real x * real y)) /\
    (finite (nth i d n0) -> finite y -> finite x /\ real y <> 0%R /\ nearest (nth i d n0) (real x / real y)).
Proof.
  intros L Dv Dw. exists (zip nadd v w), (zip nsub v w), (zip nmul v w), (zip ndiv v w).
  split; [now apply inplace_ok|]. split; [now apply inplace_ok|]. split; [now apply inplace_ok|]. split; [now apply inplace_ok|].
  intros i Hi x y. rewrite !zip_nth by auto. fold x y.
  assert (Dx : double x) by (apply Dv, nth_In; lia). assert (Dy : double y) by (apply Dw, nth_In; lia).
  split; [|split; [|split]].
  - intros F. destruct (add_finite_args _ _ F). split; auto. split; auto. apply nearest_rnd; [now apply add_double|now apply add_real].
  - intros F. destruct (sub_finite_args _ _ F). split; auto. split; auto. apply nearest_rnd; [now apply sub_double|now apply sub_real].
  - intros F. destruct (mul_finite_args _ _ F). split; auto. split; auto. apply nearest_rnd; [now apply mul_double|now apply mul_real].
  - intros F Fy. destruct (div_finite_args _ _ Dy F) as [Fx N0]. split; auto. split; auto.
    apply nearest_rnd; [now apply div_double|now apply div_real].
Qed.

Lemma err_dense A B d1 d2 d3 a b : dbuilt A -> dbuilt B -> dreads A d1 d2 a -> dreads B d2 d3 b -> doubles2 d1 d2 a -> doubles2 d2 d3 b ->
  exists C c, d_fixed_mul A B = Ok C /\ (0 < d1 -> 0 < d3 -> d_mul A B = Ok C) /\ dreads C d1 d3 c /\
    forall i k, i < d1 -> k < d3 -> finite (c i k) ->
      (Rabs (real (c i k) - rsum d2 (fun j => real (a i j) * real (b j k)))
        <= dot_bound d2 (rsum d2 (fun j => Rabs (real (a i j) * real (b j k)))))%R.
Proof.
  intros HA HB RA RB IA IB. destruct (pd_mul _ A B d1 d2 d3 a b HA HB RA RB) as (C & E1 & _ & R & E2).
  exists C, (prod2 d2 a b). split; auto. split; auto. split; auto.
  intros i k Hi Hk F. apply err_dot; auto.
Qed.
Lemma err_dense_vector A d1 d2 a v : dreads A d1 d2 a -> doubles2 d1 d2 a -> length v = d2 -> doubles v ->
  exists r, d_mulv A v = Ok r /\ length r = d1 /\
    forall i, i < d1 -> finite (nth i r n0) ->
      (Rabs (real (nth i r n0) - rsum d2 (fun j => real (a i j) * real (nth j v n0)))
        <= dot_bound d2 (rsum d2 (fun j => Rabs (real (a i j) * real (nth j v n0)))))%R.
Proof.
  intros RA IA Lv Dv. destruct (pd_mulv _ A d1 d2 a RA v) as (E & _). eexists. split; [now apply E|].
  split; [now rewrite map_length, seq_length|]. intros i Hi. rewrite nth_map_seq by auto. intros F. apply err_dot; auto.
  intros j Hj. split; [now apply IA|apply Dv, nth_In; lia].
Qed.
Lemma err_sparse A B d1 d2 d3 a b : built A -> built B -> reads A d1 d2 a -> reads B d2 d3 b -> doubles2 d1 d2 a -> doubles2 d2 d3 b ->
  exists C c, s_mul A B = Ok C /\ reads C d1 d3 c /\
    forall i k, i < d1 -> k < d3 -> finite (c i k) ->
      (Rabs (real (c i k) - rsum d2 (fun j => real (a i j) * real (b j k)))
        <= dot_bound (nonzero_count d2 (a i)) (rsum d2 (fun j => Rabs (real (a i j) * real (b j k)))))%R.
Proof.
  intros HA HB RA RB IA IB. destruct (mul_general _ NumF64_zero_laws d1 d2 d3 a b A B HA HB RA RB) as (C & E1 & _ & R).
  exists C. eexists. split; [exact E1|]. split; [exact R|]. cbv beta. intros i k Hi Hk F. rewrite norm0_real.
  apply (proj1 (norm0_finite _)) in F. apply (err_sparse_dot d2 (a i) (fun j => b j k)); auto.
Qed.
Lemma err_sparse_vector A d1 d2 a v : built A -> reads A d1 d2 a -> doubles2 d1 d2 a -> length v = d2 -> doubles v ->
  exists r, s_mulv A v = Ok r /\ length r = d1 /\
    forall i, i < d1 -> finite (nth i r n0) ->
      (Rabs (real (nth i r n0) - rsum d2 (fun j => real (a i j) * real (nth j v n0)))
        <= dot_bound (nonzero_count d2 (a i)) (rsum d2 (fun j => Rabs (real (a i j) * real (nth j v n0)))))%R.
Proof.
  intros HA RA IA Lv Dv. destruct (mulv_general _ NumF64_zero_laws d1 d2 a A v HA RA) as (E & _). eexists. split; [now apply E|].
  split; [now rewrite map_length, seq_length|]. intros i Hi. rewrite nth_map_seq by auto. intros F.
  apply (err_sparse_dot d2 (a i) (fun j => nth j v n0)); auto.
  intros j Hj. split; [now apply IA|apply Dv, nth_In; lia].
Qed.

(** ** Euclidean norm *)
Lemma sqrt_dist a b : (0 <= a)%R -> (0 <= b)%R -> (Rabs (R_sqrt.sqrt a - R_sqrt.sqrt b) * R_sqrt.sqrt b <= Rabs (a - b))%R.
Proof.
  intros Ha Hb. set (p := R_sqrt.sqrt a) in *. set (q := R_sqrt.sqrt b) in *.
  assert (Hp : (0 <= p)%R) by apply R_sqrt.sqrt_pos. assert (Hq : (0 <= q)%R) by apply R_sqrt.sqrt_pos.
  assert (Ep : (a = p * p)%R) by (unfold p; now rewrite R_sqrt.sqrt_sqrt).
  assert (Eq : (b = q * q)%R) by (unfold q; now rewrite R_sqrt.sqrt_sqrt).
  rewrite Ep, Eq. replace (p * p - q * q)%R with ((p - q) * (p + q))%R by ring. rewrite Rabs_mult.
  apply Rmult_le_compat_l; [apply Rabs_pos|]. rewrite Rabs_pos_eq; lra.
Qed.
Lemma err_mag v n : length v = n -> doubles v ->
  exists r, v_mag v = Ok r /\ (finite r -> (forall i, i < n -> finite (nth i v n0)) /\ (0 <= real r)%R /\
    let s := rsum n (fun i => real (nth i v n0) * real (nth i v n0))%R in
    (Rabs (real r - R_sqrt.sqrt s) * R_sqrt.sqrt s <= ((1 + u64) ^ (n + 1) - 1) * s + (INR n * (1 + u64) ^ (n + 1) + R_sqrt.sqrt s) * eta64)%R).
Proof.
  intros Hn Dv. destruct (err_vector v v n Hn Hn Dv Dv) as (_ & (r & E & H)).
  assert (Dr : double r).
  { revert E. rewrite dot_ok by auto. intros [= <-]. rewrite bigsum_acc.
    apply acc_double. intros i Hi. apply in_seq in Hi. apply mul_double; apply Dv; apply nth_In; lia. }
  exists (nsqrt r). unfold v_mag, v_magSqr. rewrite E. cbn [bind]. split; [reflexivity|]. intros F.
  destruct (sqrt_real r Dr F) as (Fr & Pr & Er). destruct (H Fr) as (Fv & Hr). split; [intros i Hi; apply (proj1 (Fv i Hi))|].
  cbv zeta. set (s := rsum n (fun i => real (nth i v n0) * real (nth i v n0))%R) in *.
  assert (Ps : (0 <= s)%R).
  { unfold s. clear. induction n as [|n IH]; cbn [rsum]; [lra|]. assert (0 <= real (nth n v n0) * real (nth n v n0))%R by nra. lra. }
  assert (Es : rsum n (fun i => Rabs (real (nth i v n0) * real (nth i v n0))) = s).
  { unfold s. clear. induction n as [|n IH]; cbn [rsum]; [lra|]. rewrite IH. f_equal. apply Rabs_pos_eq. nra. }
  rewrite Es in Hr. rewrite Er. split.
  { assert (P : Prec_gt_0 53) by reflexivity. apply round_ge_generic; [typeclasses eauto|typeclasses eauto|apply generic_format_0|apply R_sqrt.sqrt_pos]. }
  destruct (rnd_any (R_sqrt.sqrt (real r))) as (d & e & Hd & He & ->).
  pose proof (sqrt_dist _ _ Pr Ps) as Hq. set (p := R_sqrt.sqrt (real r)) in *. set (q := R_sqrt.sqrt s) in *.
  assert (Hp0 : (0 <= p)%R) by apply R_sqrt.sqrt_pos. assert (Hq0 : (0 <= q)%R) by apply R_sqrt.sqrt_pos.
  assert (Eq : (s = q * q)%R) by (unfold q; now rewrite R_sqrt.sqrt_sqrt).
  pose proof u64_pos as Hu. pose proof eta64_pos as Het.
  assert (Hpq : (p <= q + Rabs (p - q))%R) by (pose proof (Rle_abs (p - q)); lra).
  assert (B : (Rabs (p * (1 + d) + e - q) <= u64 * q + (1 + u64) * Rabs (p - q) + eta64)%R).
  { replace (p * (1 + d) + e - q)%R with ((p - q) + p * d + e)%R by ring.
    eapply Rle_trans; [apply Rabs_triang|]. eapply Rle_trans; [apply Rplus_le_compat_r, Rabs_triang|].
    rewrite Rabs_mult, (Rabs_pos_eq p) by lra.
    assert (p * Rabs d <= (q + Rabs (p - q)) * u64)%R by (apply Rmult_le_compat; auto using Rabs_pos; lra). lra. }
  unfold dot_bound in Hr.
  apply Rle_trans with ((u64 * q + (1 + u64) * Rabs (p - q) + eta64) * q)%R; [apply Rmult_le_compat_r; lra|].
  replace ((u64 * q + (1 + u64) * Rabs (p - q) + eta64) * q)%R with (u64 * s + (1 + u64) * (Rabs (p - q) * q) + eta64 * q)%R by (rewrite Eq; ring).
  assert (X : (Rabs (p - q) * q <= ((1 + u64) ^ n - 1) * s + INR n * (1 + u64) ^ n * eta64)%R) by lra.
  apply (Rmult_le_compat_l (1 + u64)) in X; [|lra]. rewrite pow_add, pow_1. lra.
Qed.

(** ** Comparisons, max and min *)
Lemma ltb_real (x y : NumF64) : double x -> double y -> finite x -> finite y -> (nltb x y = true <-> (real x < real y)%R).
Proof.
  intros Dx Dy. rewrite <- (toB_SF x Dx), <- (toB_SF y Dy). rewrite !finite_B, !real_B. intros Fx Fy.
  pose proof (BinarySingleNaN.Bltb_correct prec64 emax64 (toB x Dx) (toB y Dy) Fx Fy) as H. unfold BinarySingleNaN.Bltb in H.
  cbn [nltb NumF64]. rewrite H. split; intros E.
  - destruct (Rlt_bool_spec (BinarySingleNaN.B2R (toB x Dx)) (BinarySingleNaN.B2R (toB y Dy))); auto; discriminate.
  - now apply Rlt_bool_true.
Qed.
Lemma leb_real (x y : NumF64) : double x -> double y -> finite x -> finite y -> (nleb x y = true <-> (real x <= real y)%R).
Proof.
  intros Dx Dy. rewrite <- (toB_SF x Dx), <- (toB_SF y Dy). rewrite !finite_B, !real_B. intros Fx Fy.
  pose proof (BinarySingleNaN.Bleb_correct prec64 emax64 (toB x Dx) (toB y Dy) Fx Fy) as H. unfold BinarySingleNaN.Bleb in H.
  cbn [nleb NumF64]. rewrite H. split; intros E.
  - destruct (Rle_bool_spec (BinarySingleNaN.B2R (toB x Dx)) (BinarySingleNaN.B2R (toB y Dy))); auto; discriminate.
  - now apply Rle_bool_true.
Qed.
Definition fin64 (x : NumF64) : Prop := double x /\ finite x.
Lemma fold_max_real (v : list NumF64) : forall s, fin64 s -> (forall x, In x v -> fin64 x) ->
  let r := fold_left (fun s l => if nltb s l then l else s) v s in
  (r = s \/ In r v) /\ fin64 r /\ (real s <= real r)%R /\ forall x, In x v -> (real x <= real r)%R.
Proof.
  induction v as [|a v IH]; cbn [fold_left]; intros s Hs Hv.
  - cbv zeta. split; [now left|]. split; auto. split; [lra|]. intros x [].
  - assert (Ha : fin64 a) by (apply Hv; now left).
    assert (L := ltb_real s a (proj1 Hs) (proj1 Ha) (proj2 Hs) (proj2 Ha)).
    assert (Hv' : forall x, In x v -> fin64 x) by (intros; apply Hv; now right).
    destruct (nltb s a).
    + destruct (IH a Ha Hv') as (H1 & H2 & H3 & H4). cbv zeta. assert (real s < real a)%R by (now apply L).
      split; [destruct H1 as [->|H1]; right; [now left|now right]|]. split; [exact H2|]. split; [lra|].
      intros x [->|Hx]; auto.
    + assert (NL : ~ (real s < real a)%R) by (intros C; apply L in C; discriminate).
      destruct (IH s Hs Hv') as (H1 & H2 & H3 & H4). cbv zeta.
      split; [destruct H1 as [->|H1]; [now left|right; now right]|]. split; [exact H2|]. split; [lra|].
      intros x [->|Hx]; [lra|auto].
Qed.
Lemma fold_min_real (v : list NumF64) : forall s, fin64 s -> (forall x, In x v -> fin64 x) ->
  let r := fold_left (fun s l => if nltb l s then l else s) v s in
  (r = s \/ In r v) /\ fin64 r /\ (real r <= real s)%R /\ forall x, In x v -> (real r <= real x)%R.
Proof.
  induction v as [|a v IH]; cbn [fold_left]; intros s Hs Hv.
  - cbv zeta. split; [now left|]. split; auto. split; [lra|]. intros x [].
  - assert (Ha : fin64 a) by (apply Hv; now left).
    assert (L := ltb_real a s (proj1 Ha) (proj1 Hs) (proj2 Ha) (proj2 Hs)).
    assert (Hv' : forall x, In x v -> fin64 x) by (intros; apply Hv; now right).
    destruct (nltb a s).
    + destruct (IH a Ha Hv') as (H1 & H2 & H3 & H4). cbv zeta. assert (real a < real s)%R by (now apply L).
      split; [destruct H1 as [->|H1]; right; [now left|now right]|]. split; [exact H2|]. split; [lra|].
      intros x [->|Hx]; auto.
    + assert (NL : ~ (real a < real s)%R) by (intros C; apply L in C; discriminate).
      destruct (IH s Hs Hv') as (H1 & H2 & H3 & H4). cbv zeta.
      split; [destruct H1 as [->|H1]; [now left|right; now right]|]. split; [exact H2|]. split; [lra|].
      intros x [->|Hx]; [lra|auto].
Qed.
Lemma double_minpos : fin64 nminpos. Proof. split; [reflexivity|exact I]. Qed.
Lemma double_max : fin64 nmax. Proof. split; [reflexivity|exact I]. Qed.
Lemma real_minpos : real nminpos = powerRZ 2 (-1022).
Proof.
  unfold real. cbn [nminpos NumF64]. change (Z.pos (2 ^ 52)) with (radix2 ^ 52)%Z. rewrite (IZR_Zpower radix2 52) by lia.
  rewrite !bpow_powerRZ. change (IZR radix2) with 2%R. rewrite <- powerRZ_add by lra. reflexivity.
Qed.
Lemma real_le_max (x : NumF64) : double x -> finite x -> (real x <= real nmax)%R.
Proof.
  intros Dx Fx.
  pose proof (BinarySingleNaN.abs_B2R_le_emax_minus_prec prec64 emax64 eq_refl (toB x Dx)) as H.
  rewrite <- (real_B (toB x Dx)), (toB_SF x Dx) in H.
  assert (E : real nmax = (bpow radix2 emax64 - bpow radix2 (emax64 - prec64))%R).
  { change (bpow radix2 emax64) with (bpow radix2 (53 + 971)). rewrite bpow_plus. change (emax64 - prec64)%Z with 971%Z.
    unfold real. cbn [nmax NumF64]. rewrite (bpow_powerRZ radix2 971). change (IZR radix2) with 2%R. rewrite <- (IZR_Zpower radix2 53) by lia.
    change (Z.pos (2 ^ 53 - 1)) with (radix2 ^ 53 - 1)%Z. rewrite minus_IZR. ring. }
  rewrite E. eapply Rle_trans; [apply Rle_abs|exact H].
Qed.
Lemma real_inj (x y : NumF64) : double x -> double y -> finite x -> finite y -> real x = real y -> real x <> 0%R -> x = y.
Proof.
  intros Dx Dy. rewrite <- (toB_SF x Dx), <- (toB_SF y Dy). rewrite !finite_B, !real_B. intros Fx Fy E Nz. f_equal.
  apply BinarySingleNaN.B2R_inj; auto.
  - destruct (toB x Dx) as [s|s| |s m e B]; cbn in *; try discriminate; auto; congruence.
  - rewrite E in Nz. destruct (toB y Dy) as [s|s| |s m e B]; cbn in *; try discriminate; auto; congruence.
Qed.
Lemma extreme_vector v : doubles v -> (forall x, In x v -> finite x) ->
  ((exists x, In x v /\ (powerRZ 2 (-1022) <= real x)%R) ->
     exists r, v_max v = Ok r /\ In r v /\ forall x, In x v -> (real x <= real r)%R) /\
  (v <> [] -> exists r, v_min v = Ok r /\ In r v /\ forall x, In x v -> (real r <= real x)%R).
Proof.
  intros Dv Fv. assert (Hv : forall x, In x v -> fin64 x) by (split; auto). split.
  - intros (x & Ix & Hx). rewrite max_ok. eexists. split; [reflexivity|].
    destruct (fold_max_real v nminpos double_minpos Hv) as (H1 & H2 & H3 & H4). split; [|exact H4].
    destruct H1 as [H1|H1]; [|exact H1]. rewrite H1 in *. specialize (H4 _ Ix). rewrite <- real_minpos in Hx.
    replace (nminpos : NumF64) with x; auto. apply real_inj; auto; [apply double_minpos|apply double_minpos|lra|].
    rewrite real_minpos in Hx. assert (0 < powerRZ 2 (-1022))%R by (apply powerRZ_lt; lra). lra.
  - intros Ne. rewrite min_ok. eexists. split; [reflexivity|].
    destruct (fold_min_real v nmax double_max Hv) as (H1 & H2 & H3 & H4). split; [|exact H4].
    destruct H1 as [H1|H1]; [|exact H1]. rewrite H1 in *. destruct v as [|x t]; [congruence|].
    assert (Ix : In x (x :: t)) by now left. specialize (H4 _ Ix). pose proof (real_le_max x (Dv _ Ix) (Fv _ Ix)).
    replace (nmax : NumF64) with x; auto. apply real_inj; auto; [apply double_max|apply double_max|lra|].
    assert (0 < real nmax)%R; [|lra]. unfold real. cbn [nmax NumF64]. apply Rmult_lt_0_compat; [now apply IZR_lt|apply powerRZ_lt; lra].
Qed.
