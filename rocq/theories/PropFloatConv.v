(** Property C93: Jacobi and SOR on doubles reach the solution up to rounding, and stop.  Vocabulary: FloatSpec.v, FloatIterSpec.v and
    FloatConvSpec.v.  For a matrix whose off-diagonal row sums are at most q times the diagonal entry and whose rows have at most m
    nonzero entries, [jac_rate] is q (1 + about m 2^-53) and [jac_floor] about m 2^-53 (1 + 2 q) / (1 - q) times the size Z of the
    solution; [sor_rate] is about |1 - w| + |w| q. *)
From Coq Require Import ZArith Reals List Arith Bool SpecFloat Lia Lra.
From Flocq Require Import Core.
From Verif Require Import Base BaseProofs Num NumInst Spec VectorModel SparseModel SparseSpec DenseModel DenseSpec
  MatI MatIProofs MatOps LUModel LUSolve IterModel ExampleBase FloatSpec FloatIterSpec FloatSolve FloatIter FloatProofs PropFloat PropFloatIter FloatConvSpec FloatConv.
Import ListNotations.
Local Open Scope nat_scope.
Open Scope res_scope.

(** The equations a z = b of order n in doubles: all entries finite, diagonally dominant with quotient q, the exact solution z is at most Z. *)
Definition equations (n : nat) (a : nat -> nat -> NumF64) (b : list NumF64) (z : nat -> R) (q d0 d Z : R) (m : nat) : Prop :=
  doubles2 n n a /\ all_finite n a /\ length b = n /\ doubles b /\ (forall i, i < n -> finite (nth i b n0)) /\
  exact_solution n a b z /\ (0 <= q <= 1)%R /\ (0 < d0 <= d)%R /\ dominated n a q d0 d m /\
  (0 <= Z)%R /\ (forall i, i < n -> (Rabs (z i) <= Z)%R) /\ (Z.of_nat n < 2 ^ 53)%Z.
(** The tolerance is a double whose square does not overflow. *)
Definition tolerance (eps : NumF64) : Prop := double eps /\ finite eps /\ (Rabs (real eps) <= powerRZ 2 500)%R.

(** ** Jacobi *)
(** From a start within e0 of the solution the call always returns normally (no exception, no NaN, no overflow), and after the k sweeps it
    reports, the vector is within c^k e0 + floor of the exact solution in every component.  The run stops no later than one sweep after that
    bound has fallen below about eps / (2 sqrt n). *)
Theorem C93_jacobi : forall M, double_rows M -> forall (A : M) n a b z q d0 d Z m x0 e0 maxIter eps,
  holds A n n a -> equations n a b z q d0 d Z m -> tolerance eps ->
  let c := jac_rate m q in let floor := jac_floor m q d0 Z in
  (c < 1)%R -> (0 <= e0)%R -> within n z e0 x0 -> moderate Z (e0 + floor) d0 d -> (e0 + floor <= powerRZ 2 400)%R ->
  exists y k, it_jacobi A b x0 maxIter eps = Ok (y, k) /\ k <= maxIter /\ within n z (c ^ k * e0 + floor) y /\
    forall j, j < maxIter -> settled n (real eps) (c ^ j * e0 + floor) -> k <= j + 1.
Proof.
  intros M HM A n a b z q d0 d Z m x0 e0 maxIter eps HA (H1 & H2 & H3 & H4 & H5 & H6 & (H7 & H7') & (H8 & H8') & H9 & H10 & H11 & H12) (T1 & T2 & T3) c floor Hc He W Hm HB.
  apply (jacobi_converges (dr_reads M HM) A n a b z q d0 d Z e0 m); auto. lra.
Qed.
(** When the tolerance is above the limiting accuracy, the number of sweeps is bounded no matter how many are allowed. *)
Theorem C93_jacobi_stops : forall M, double_rows M -> forall (A : M) n a b z q d0 d Z m x0 e0 eps,
  holds A n n a -> equations n a b z q d0 d Z m -> tolerance eps ->
  let c := jac_rate m q in let floor := jac_floor m q d0 Z in
  (c < 1)%R -> (0 <= e0)%R -> within n z e0 x0 -> moderate Z (e0 + floor) d0 d -> (e0 + floor <= powerRZ 2 400)%R ->
  settled n (real eps) (2 * floor) ->
  exists J, forall maxIter, exists y k, it_jacobi A b x0 maxIter eps = Ok (y, k) /\ k <= J.
Proof.
  intros M HM A n a b z q d0 d Z m x0 e0 eps HA HE HT c floor Hc He W Hm HB HS.
  pose proof HE as (H1 & H2 & H3 & H4 & H5 & H6 & (H7 & H7') & (H8 & H8') & H9 & H10 & H11 & H12).
  assert (Pc : (0 <= c)%R) by now apply jac_rate_pos.
  assert (Pf : (0 < floor)%R) by exact (fl_pos q d0 Z m H7 H8 H10 Hc).
  destruct (stops_at n (real eps) c e0 floor (conj Pc Hc) He Pf HS) as (J & HJ). exists (J + 1). intros maxIter.
  destruct (C93_jacobi M HM A n a b z q d0 d Z m x0 e0 maxIter eps HA HE HT Hc He W Hm HB) as (y & k & E & Hk & _ & Hj).
  exists y, k. split; [exact E|]. destruct (Nat.lt_ge_cases J maxIter) as [Hl|Hl]; [now apply Hj|lia].
Qed.

(** ** SOR *)
(** The same for every weight w with rate below 1 (about 0 < w < 2 / (1 + q)).  e0 also has to bound the solution itself, because the first
    sweep mixes with the zero vector and not with x0 (see C46_first_sweep_refuted). *)
Theorem C93_sor : forall M, double_rows M -> forall (A : M) n a b z q d0 d Z m x0 w e0 maxIter eps,
  holds A n n a -> equations n a b z q d0 d Z m -> tolerance eps -> double w -> finite w ->
  let c := sor_rate m q (real w) in let floor := sor_floor m q d0 Z (real w) in
  (c < 1)%R -> (0 <= e0)%R -> (Z <= e0)%R -> within n z e0 x0 -> moderate Z (e0 + floor) d0 d -> (e0 + floor <= powerRZ 2 400)%R ->
  exists y k, it_sor A b x0 w maxIter eps = Ok (y, k) /\ k <= maxIter /\ within n z (c ^ k * e0 + floor) y /\
    forall j, j < maxIter -> settled n (real eps) (c ^ j * e0 + floor) -> k <= j + 1.
Proof.
  intros M HM A n a b z q d0 d Z m x0 w e0 maxIter eps HA (H1 & H2 & H3 & H4 & H5 & H6 & (H7 & H7') & (H8 & H8') & H9 & H10 & H11 & H12) (T1 & T2 & T3) Dw Fw c floor Hc He HZ W Hm HB.
  apply (sor_converges (dr_reads M HM) A n a b z q d0 d Z e0 m); auto. lra.
Qed.
Theorem C93_sor_stops : forall M, double_rows M -> forall (A : M) n a b z q d0 d Z m x0 w e0 eps,
  holds A n n a -> equations n a b z q d0 d Z m -> tolerance eps -> double w -> finite w ->
  let c := sor_rate m q (real w) in let floor := sor_floor m q d0 Z (real w) in
  (c < 1)%R -> (0 <= e0)%R -> (Z <= e0)%R -> within n z e0 x0 -> moderate Z (e0 + floor) d0 d -> (e0 + floor <= powerRZ 2 400)%R ->
  settled n (real eps) (2 * floor) ->
  exists J, forall maxIter, exists y k, it_sor A b x0 w maxIter eps = Ok (y, k) /\ k <= J.
Proof.
  intros M HM A n a b z q d0 d Z m x0 w e0 eps HA HE HT Dw Fw c floor Hc He HZ W Hm HB HS.
  pose proof HE as (H1 & H2 & H3 & H4 & H5 & H6 & (H7 & H7') & (H8 & H8') & H9 & H10 & H11 & H12).
  assert (Pc : (0 <= c)%R) by exact (sc_pos q m H7 w).
  assert (Pf : (0 < floor)%R) by exact (sfl_pos q d0 Z m H7 H8 H10 w Hc).
  destruct (stops_at n (real eps) c e0 floor (conj Pc Hc) He Pf HS) as (J & HJ). exists (J + 1). intros maxIter.
  destruct (C93_sor M HM A n a b z q d0 d Z m x0 w e0 maxIter eps HA HE HT Dw Fw Hc He HZ W Hm HB) as (y & k & E & Hk & _ & Hj).
  exists y, k. split; [exact E|]. destruct (Nat.lt_ge_cases J maxIter) as [Hl|Hl]; [now apply Hj|lia].
Qed.

(** ** Examples *)
(** ((4,-1),(-1,4)) y = (2,7) with the solution (1,2), from (0,0): after k sweeps of Jacobi, or of SOR with weight 1, the error is at most
    2/3^k + 2^-47, and with the tolerance 2^-20 the run ends after at most 17 sweeps, however many are allowed. *)
Definition fa (i j : nat) : NumF64 := nth j (nth i [[fz 4; fz (-1)]; [fz (-1); fz 4]] []) n0.
Definition fzs (i : nat) : R := match i with O => 1%R | _ => 2%R end.
Lemma real_ints : real (fz 4) = 4%R /\ real (fz (-1)) = (-1)%R /\ real (fz 2) = 2%R /\ real (fz 7) = 7%R /\ real (fz 0) = 0%R /\ real (fz 1) = 1%R.
Proof.
  split; [apply (int_checked (fz 4) 4); reflexivity|]. split; [apply (int_checked (fz (-1)) (-1)); reflexivity|].
  split; [apply (int_checked (fz 2) 2); reflexivity|]. split; [apply (int_checked (fz 7) 7); reflexivity|].
  split; [reflexivity|apply (int_checked (fz 1) 1); reflexivity].
Qed.
Ltac two i := destruct i as [|[|i]]; try lia.
Lemma fE_holds : holds fE 2 2 fa.
Proof. split; [reflexivity|]. split; [reflexivity|]. split; [reflexivity|]. intros i j Hi Hj; two i; two j; vm_compute; reflexivity. Qed.
Lemma fE_equations : equations 2 fa [fz 2; fz 7] fzs (1 / 4) 4 4 2 2.
Proof.
  destruct real_ints as (R4 & Rm & R2 & R7 & R0 & R1).
  split; [intros i j Hi Hj; two i; two j; reflexivity|]. split; [intros i j Hi Hj; two i; two j; exact I|]. split; [reflexivity|].
  split; [intros x [<-|[<-|[]]]; reflexivity|]. split; [intros i Hi; two i; exact I|].
  split; [intros i Hi; two i; unfold fa; cbn [rsum nth fzs]; rewrite ?R4, ?Rm, ?R2, ?R7; lra|]. split; [lra|]. split; [lra|].
  split. { intros i Hi. assert (nonzero_count 2 (fa i) = 2) as -> by (two i; vm_compute; reflexivity).
    two i; unfold roff, fa; cbn [rsum nth Nat.eqb]; rewrite R4, Rm, (Rabs_pos_eq 4), (Rabs_left (-1)) by lra; split; try lra; split; try lra; lia. }
  split; [lra|]. split; [intros i Hi; two i; cbn [fzs]; rewrite Rabs_pos_eq; lra|reflexivity].
Qed.
Lemma two_20 : tolerance (two_to (-20)) /\ real (two_to (-20)) = powerRZ 2 (-20).
Proof.
  assert (E : real (two_to (-20)) = powerRZ 2 (-20)).
  { cbn [real two_to]. change (Z.pos (2 ^ 52)) with (2 ^ Z.of_nat 52)%Z. rewrite <- pow_IZR, pow_powerRZ, <- powerRZ_add by lra. f_equal. }
  split; [|exact E]. split; [reflexivity|]. split; [exact I|]. rewrite E, Rabs_pos_eq by (left; apply powerRZ_lt; lra).
  change 2%R with (IZR radix2). rewrite <- !bpow_powerRZ. apply bpow_le. lia.
Qed.

Lemma small_numbers : (0 < u64 <= / 1024 /\ 0 < eta64 <= u64)%R.
Proof.
  split; [split; [apply powerRZ_lt; lra|unfold u64; simpl; lra]|]. split; [apply powerRZ_lt; lra|].
  unfold eta64, u64. change 2%R with (IZR radix2). rewrite <- !bpow_powerRZ. apply bpow_le. lia.
Qed.
(** The numbers for q = 1/4, entries 4, solutions up to 2, two entries in a row. *)
Lemma example_rates : (jac_rate 2 (1 / 4) <= 1 / 3 /\ jac_floor 2 (1 / 4) 4 2 <= 64 * u64 /\ sor_rate 2 (1 / 4) 1 <= 1 / 3 /\ sor_floor 2 (1 / 4) 4 2 1 <= 64 * u64)%R.
Proof.
  pose proof small_numbers as ((U & U1) & V & V1).
  assert (P2 : ((1 + u64) ^ 2 <= 1 + 3 * u64)%R) by (simpl; assert (u64 * u64 <= / 1024 * u64)%R by (apply Rmult_le_compat_r; lra); lra).
  assert (P4 : ((1 + u64) ^ (2 + 2) <= 1 + 8 * u64)%R).
  { rewrite pow_add. pose proof (FloatProofs.pow_ge_1 2). apply Rle_trans with ((1 + 3 * u64) * (1 + 3 * u64))%R; [apply Rmult_le_compat; lra|].
    assert (u64 * u64 <= / 1024 * u64)%R by (apply Rmult_le_compat_r; lra). lra. }
  pose proof (FloatProofs.pow_ge_1 (2 + 2)) as Q4. pose proof (FloatProofs.pow_ge_1 2) as Q2.
  assert (J : (0 <= jac_rate 2 (1 / 4) <= 1 / 4 * (1 + 8 * u64))%R) by (unfold jac_rate; lra).
  assert (N : (0 < row_noise 2 (1 / 4) 4 2 <= 30 * u64)%R).
  { split; [apply row_noise_pos; lra|]. unfold row_noise. replace (INR (2 + 2)) with 4%R by (simpl; lra). set (w := ((1 + u64) ^ (2 + 2))%R) in *.
    assert (w * eta64 <= 2 * u64)%R by (apply Rmult_le_compat; lra). lra. }
  assert (S : (0 <= sor_rate 2 (1 / 4) 1 <= 1 / 3)%R).
  { unfold sor_rate. replace (1 - 1)%R with 0%R by ring. rewrite Rabs_R0, Rabs_R1. set (j := jac_rate 2 (1 / 4)) in *. set (g := ((1 + u64) ^ 2)%R) in *.
    assert (0 <= g * j <= (1 + 3 * u64) * (1 / 4 * (1 + 8 * u64)))%R by (split; [apply Rmult_le_pos; lra|apply Rmult_le_compat; lra]).
    assert (u64 * u64 <= / 1024 * u64)%R by (apply Rmult_le_compat_r; lra). lra. }
  assert (D : forall c x, (0 <= c <= 1 / 3 -> 0 <= x <= 40 * u64 -> x / (1 - c) <= 64 * u64)%R).
  { intros c x Hc Hx. apply Rmult_le_reg_r with (1 - c)%R; [lra|]. unfold Rdiv. rewrite Rmult_assoc, Rinv_l by lra.
    assert (64 * u64 * (2 / 3) <= 64 * u64 * (1 - c))%R by (apply Rmult_le_compat_l; lra). lra. }
  split; [lra|]. split; [apply D; lra|]. split; [lra|]. apply D; [lra|]. split; [left; apply sor_noise_pos; lra|].
  unfold sor_noise. replace (1 - 1)%R with 0%R by ring. rewrite Rabs_R0, Rabs_R1. set (r := row_noise 2 (1 / 4) 4 2) in *. set (g := ((1 + u64) ^ 2)%R) in *.
  assert (g * r <= (1 + 3 * / 1024) * (30 * u64))%R by (apply Rmult_le_compat; lra).
  assert ((1 + u64) * eta64 <= (1 + u64) * (u64 * / 1024))%R.
  { apply Rmult_le_compat_l; [lra|]. apply Rle_trans with (powerRZ 2 (-63)).
    - unfold eta64. change 2%R with (IZR radix2). rewrite <- !bpow_powerRZ. apply bpow_le. lia.
    - unfold u64. right. simpl. lra. }
  assert (u64 * u64 <= / 1024 * u64)%R by (apply Rmult_le_compat_r; lra). lra.
Qed.

Lemma example_bound c f k : (0 <= c <= 1 / 3 -> f <= 64 * u64 -> c ^ k * 2 + f <= 2 / 3 ^ k + powerRZ 2 (-47))%R.
Proof.
  intros Hc Hf. assert (H : (c ^ k <= (1 / 3) ^ k)%R) by now apply pow_incr. assert (E : (64 * u64 = powerRZ 2 (-47))%R) by (unfold u64; simpl; lra).
  assert (E3 : ((1 / 3) ^ k = / 3 ^ k)%R) by (unfold Rdiv; rewrite Rmult_1_l; apply pow_inv). rewrite E3 in H. unfold Rdiv at 1. lra.
Qed.
Lemma example_settled c f : (0 <= c <= 1 / 3 -> 0 < f <= 64 * u64 -> settled 2 (powerRZ 2 (-20)) (c ^ 16 * 2 + f))%R.
Proof.
  intros Hc Hf. pose proof small_numbers as ((U & U1) & V & V1). apply (settled_le 2 _ _ (powerRZ 2 (-22))).
  - split; [pose proof (pow_le c 16 ltac:(lra)); lra|]. assert (H : (c ^ 16 <= (1 / 3) ^ 16)%R) by now apply pow_incr.
    assert (E : (64 * u64 = powerRZ 2 (-47))%R) by (unfold u64; simpl; lra).
    apply Rle_trans with ((1 / 3) ^ 16 * 2 + powerRZ 2 (-47))%R; [lra|]. simpl. lra.
  - unfold settled. assert (Q2 : (0 <= (1 + u64) ^ 2 <= 1 + 3 * / 1024)%R).
    { split; [apply pow_le; lra|]. simpl. assert (u64 * u64 <= / 1024 * / 1024)%R by (apply Rmult_le_compat; lra). lra. }
    assert (Q4 : ((1 + u64) ^ (2 + 2) <= 1 + / 100)%R).
    { rewrite pow_add. apply Rle_trans with ((1 + 3 * / 1024) * (1 + 3 * / 1024))%R; [apply Rmult_le_compat; lra|lra]. }
    replace (INR 2) with 2%R by (simpl; lra).
    assert (E : ((2 * powerRZ 2 (-22)) ^ 2 = powerRZ 2 (-42))%R) by (simpl; lra). rewrite E.
    assert (E2 : (powerRZ 2 (-20) ^ 2 = 4 * powerRZ 2 (-42))%R) by (simpl; lra). rewrite E2.
    set (p := powerRZ 2 (-42)). assert (Pp : (0 < p)%R) by (apply powerRZ_lt; lra).
    assert (Ep : (u64 = p * / 2048)%R) by (unfold p, u64; simpl; lra).
    assert (H1 : (2 * p * (1 + u64) ^ (2 + 2) <= 2 * p * (1 + / 100))%R) by (apply Rmult_le_compat_l; lra).
    assert (H2 : ((2 * (1 + u64) ^ 2 + 1) * eta64 <= 4 * u64)%R) by (apply Rmult_le_compat; lra).
    assert (H3 : ((1 - / 1024) * (4 * p) <= (1 - u64) * (4 * p))%R) by (apply Rmult_le_compat_r; lra). lra.
Qed.
Lemma example_moderate f : (0 < f <= 64 * u64 -> moderate 2 (2 + f) 4 4 /\ 2 + f <= powerRZ 2 400)%R.
Proof.
  intros H. pose proof small_numbers as ((U & U1) & V & V1).
  assert (B : forall k, (5 <= k)%Z -> (32 <= powerRZ 2 k)%R).
  { intros k Hk. replace 32%R with (powerRZ 2 5) by (simpl; lra). change 2%R with (IZR radix2). rewrite <- !bpow_powerRZ. apply bpow_le. lia. }
  pose proof (B 990%Z ltac:(lia)) as B1. pose proof (B 400%Z ltac:(lia)) as B2. set (x := powerRZ 2 990) in *. set (y := powerRZ 2 400) in *.
  unfold moderate. fold x. lra.
Qed.
Lemma example_start : within 2 fzs 2 [fz 0; fz 0].
Proof.
  destruct real_ints as (R4 & Rm & R2 & R7 & R0 & R1). split; [reflexivity|]. split; [intros x [<-|[<-|[]]]; reflexivity|].
  intros i Hi. two i; cbn [nth fzs]; rewrite R0; (split; [exact I|]); rewrite Rabs_left by lra; lra.
Qed.
Example C93_example : forall maxIter,
  (exists y k, it_jacobi fE [fz 2; fz 7] [fz 0; fz 0] maxIter (two_to (-20)) = Ok (y, k) /\ k <= maxIter /\ k <= 17 /\
     within 2 fzs (2 / 3 ^ k + powerRZ 2 (-47)) y) /\
  (exists y k, it_sor fE [fz 2; fz 7] [fz 0; fz 0] n1 maxIter (two_to (-20)) = Ok (y, k) /\ k <= maxIter /\ k <= 17 /\
     within 2 fzs (2 / 3 ^ k + powerRZ 2 (-47)) y).
Proof.
  intros maxIter. destruct example_rates as (J1 & J2 & S1 & S2). destruct two_20 as (T & ET).
  assert (J0 : (0 <= jac_rate 2 (1 / 4))%R) by (apply jac_rate_pos; lra).
  assert (R1 : real (n1 : NumF64) = 1%R) by apply real_ints.
  assert (S1' : (sor_rate 2 (1 / 4) (real (n1 : NumF64)) <= 1 / 3)%R) by now rewrite R1.
  assert (S2' : (sor_floor 2 (1 / 4) 4 2 (real (n1 : NumF64)) <= 64 * u64)%R) by now rewrite R1.
  assert (S0 : (0 <= sor_rate 2 (1 / 4) (real (n1 : NumF64)))%R) by (apply (sc_pos (1 / 4) 2); lra).
  assert (JF : (0 < jac_floor 2 (1 / 4) 4 2)%R) by (apply (fl_pos (1 / 4) 4 2 2); lra).
  assert (SF : (0 < sor_floor 2 (1 / 4) 4 2 (real (n1 : NumF64)))%R) by (apply (sfl_pos (1 / 4) 4 2 2); lra).
  split.
  - destruct (example_moderate _ (conj JF J2)) as [M1 M2].
    destruct (C93_jacobi (DenseR NumF64) dr_dense fE 2 fa [fz 2; fz 7] fzs (1 / 4) 4 4 2 2 [fz 0; fz 0] 2 maxIter (two_to (-20))
      fE_holds fE_equations T ltac:(lra) ltac:(lra) example_start M1 M2) as (y & k & E & Hk & W & Hj).
    exists y, k. split; [exact E|]. split; [exact Hk|]. rewrite ET in Hj. split.
    + destruct (Nat.lt_ge_cases 16 maxIter) as [H|H]; [|lia]. apply (Hj 16); auto. apply example_settled; lra.
    + eapply within_le; [|exact W]. apply example_bound; lra.
  - destruct (example_moderate _ (conj SF S2')) as [M1 M2].
    destruct (C93_sor (DenseR NumF64) dr_dense fE 2 fa [fz 2; fz 7] fzs (1 / 4) 4 4 2 2 [fz 0; fz 0] n1 2 maxIter (two_to (-20))
      fE_holds fE_equations T eq_refl I ltac:(lra) ltac:(lra) ltac:(lra) example_start M1 M2) as (y & k & E & Hk & W & Hj).
    exists y, k. split; [exact E|]. split; [exact Hk|]. rewrite ET in Hj. split.
    + destruct (Nat.lt_ge_cases 16 maxIter) as [H|H]; [|lia]. apply (Hj 16); auto. apply example_settled; lra.
    + eapply within_le; [|exact W]. apply example_bound; lra.
Qed.
