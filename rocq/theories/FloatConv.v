(** Convergence of jacobi and sor on doubles (property C93). *)
From Coq Require Import ZArith Reals List Arith Bool SpecFloat Lia Lra.
From Flocq Require Import Core.
From Verif Require Import Base BaseProofs Num NumInst Spec VectorModel VectorSpec VectorProofs SparseModel SparseSpec DenseModel DenseSpec
  MatI MatIProofs MatOps LUModel LUSolve IterModel FloatSpec F64Flocq FloatProofs FloatResult FloatSolve FloatIterSpec FloatIter FloatLUSpec FloatLU FloatGrowth FloatConvSpec.
Import ListNotations.
Local Open Scope R_scope.

Lemma P990 : powerRZ 2 990 = bpow radix2 990.
Proof. symmetry. exact (bpow_powerRZ radix2 990). Qed.
Lemma B990 : 1 <= bpow radix2 990.
Proof. change 1 with (bpow radix2 0). apply bpow_le. lia. Qed.
Lemma bmul k : bpow radix2 (990 + k) = bpow radix2 k * bpow radix2 990.
Proof. rewrite Z.add_comm. apply bpow_plus. Qed.
Lemma small_u : u64 <= / 1024.
Proof. unfold u64. simpl. lra. Qed.
Lemma n_eta n : (Z.of_nat n < 2 ^ 53)%Z -> INR n * eta64 <= 1.
Proof.
  intros H. pose proof eta64_pos as V. apply Rle_trans with (bpow radix2 53 * eta64).
  - apply Rmult_le_compat_r; [lra|]. rewrite INR_IZR_INZ. change (bpow radix2 53) with (IZR (2 ^ 53)). apply IZR_le. lia.
  - rewrite eta64_bpow. apply Rle_trans with (bpow radix2 53 * bpow radix2 (-53)).
    + apply Rmult_le_compat_l; [apply bpow_ge_0|]. pose proof (bpow_ge_0 radix2 (-1074)).
      apply Rle_trans with (bpow radix2 (-1074)); [lra|]. apply bpow_le. lia.
    + rewrite <- bpow_plus. simpl. lra.
Qed.
Lemma flt_len {A} (p : A -> bool) l : (length (filter p l) <= length l)%nat.
Proof. induction l as [|x l IH]; simpl; auto. destruct (p x); simpl; lia. Qed.
Lemma rnd_lt x k : (-1074 <= k < 1024)%Z -> Rabs x <= bpow radix2 k -> Rabs (rnd x) < bpow radix2 1024.
Proof. intros H B. eapply Rle_lt_trans; [apply rnd_le_bpow; [|exact B]; lia|]. apply bpow_lt. lia. Qed.
Lemma err_abs x d : Rabs d <= u64 -> Rabs (x * (1 + d)) <= (1 + u64) * Rabs x.
Proof.
  intros H. rewrite Rabs_mult, Rmult_comm. apply Rmult_le_compat_r; [apply Rabs_pos|]. eapply Rle_trans; [apply Rabs_triang|].
  rewrite Rabs_R1. lra.
Qed.

(** ** One equation *)
Section Row.
Variables (keep : nat -> bool) (f v : nat -> NumF64) (i n : nat) (b : NumF64) (z : nat -> R) (q d0 d Z e : R) (m : nat).
Hypotheses (Hi : (i < n)%nat) (Hn : (Z.of_nat n < 2 ^ 53)%Z) (K : skips keep f n)
  (Df : forall j, (j < n)%nat -> double (f j)) (Ff : forall j, (j < n)%nat -> finite (f j))
  (Dv : forall j, (j < n)%nat -> double (v j)) (Fv : forall j, (j < n)%nat -> finite (v j)) (Db : double b) (Fb : finite b)
  (Hz : rsum n (fun j => real (f j) * z j) = real b) (Hq0 : 0 <= q) (Hq : q <= 1)
  (Hoff : roff n i (fun j => Rabs (real (f j))) <= q * Rabs (real (f i))) (Hd0 : 0 < d0) (Hd : d0 <= Rabs (real (f i)) <= d)
  (Hm : (nonzero_count n f <= m)%nat) (HZ : forall j, (j < n)%nat -> Rabs (z j) <= Z)
  (He : forall j, (j < n)%nat -> Rabs (real (v j) - z j) <= e) (HM : moderate Z e d0 d).
Let p := Rabs (real (f i)).
Lemma Z_pos : 0 <= Z.
Proof. eapply Rle_trans; [apply Rabs_pos|exact (HZ i Hi)]. Qed.
Lemma epos : 0 <= e.
Proof. eapply Rle_trans; [apply Rabs_pos|exact (He i Hi)]. Qed.
Lemma p_pos : 0 < p.
Proof. unfold p. lra. Qed.
Lemma off_scal g c : 0 <= c -> (forall j, (j < n)%nat -> Rabs (g j) <= c) -> roff n i (fun j => Rabs (real (f j) * g j)) <= q * p * c.
Proof.
  intros Hc H. eapply Rle_trans; [|apply Rmult_le_compat_r; [exact Hc|exact Hoff]].
  eapply Rle_trans; [|apply (roff_scal_le n i (fun j => Rabs (real (f j))) (fun j => Rabs (g j)) c)].
  - apply roff_le. intros j Hj _. rewrite Rabs_mult. lra.
  - intros; apply Rabs_pos.
  - exact H.
Qed.
Lemma v_bounded j : (j < n)%nat -> Rabs (real (v j)) <= Z + e.
Proof.
  intros Hj. replace (real (v j)) with (z j + (real (v j) - z j)) by ring. eapply Rle_trans; [apply Rabs_triang|].
  pose proof (HZ j Hj). pose proof (He j Hj). lra.
Qed.
Lemma b_size : Rabs (real b) <= (1 + q) * p * Z.
Proof.
  rewrite <- Hz. rewrite (rsum_split n i) by auto. eapply Rle_trans; [apply Rabs_triang|].
  assert (H1 : Rabs (real (f i) * z i) <= p * Z) by (rewrite Rabs_mult; apply Rmult_le_compat_l; [apply Rabs_pos|auto]).
  assert (H2 : Rabs (roff n i (fun j => real (f j) * z j)) <= q * p * Z).
  { eapply Rle_trans; [|apply (off_scal z Z Z_pos HZ)]. unfold roff. eapply Rle_trans; [apply rsum_abs|]. apply rsum_le. intros j Hj.
    destruct (j =? i)%nat; [rewrite Rabs_R0|]; lra. }
  lra.
Qed.
Lemma quot_near : finite (quot keep f v i n b) /\
  Rabs (real (quot keep f v i n b) - z i) <= jac_rate m q * e + row_noise m q d0 Z.
Proof.
  pose proof Z_pos as PZ. pose proof epos as Pe. pose proof p_pos as Pp. pose proof b_size as SB.
  pose proof u64_pos as U. pose proof eta64_pos as V. pose proof B990 as B1. pose proof small_u as U1.
  destruct HM as (M1 & M2 & M3). rewrite P990 in *. set (B := bpow radix2 990) in *.
  assert (ST : roff n i (fun j => Rabs (real (f j) * real (v j))) <= q * p * (Z + e)) by (apply off_scal; [lra|exact v_bounded]).
  assert (PE : p * (Z + e) <= B).
  { eapply Rle_trans; [|exact M2]. apply Rmult_le_compat_r; [lra|]. unfold p. lra. }
  assert (Qp : q * p * (Z + e) <= p * (Z + e)).
  { apply Rmult_le_compat_r; [lra|]. rewrite <- (Rmult_1_l p) at 2. apply Rmult_le_compat_r; lra. }
  assert (F : finite (quot keep f v i n b)).
  { destruct (mid_facts keep f i n Hi K (Df i Hi) (Ff i Hi)) as (Dm & Fm & Em).
    set (l := off keep i n). assert (Hl : forall j, In j l -> (j < n)%nat).
    { intros j Hj. unfold l, off in Hj. apply filter_In in Hj as [Hj _]. apply filter_In in Hj as [Hj _]. apply in_seq in Hj. lia. }
    assert (Ll : (length l <= n)%nat).
    { rewrite <- (seq_length n 0). unfold l, off. eapply Nat.le_trans; [|apply (flt_len keep)]. apply flt_len. }
    set (T := roff n i (fun j => Rabs (real (f j) * real (v j)))) in *.
    assert (Z0 : forall j, (j < n)%nat -> keep j = false -> real (f j) = 0) by (intros j Hj E; apply is0_real; now apply K).
    assert (ET : rlist l (fun j => Rabs (real (f j) * real (v j))) = T).
    { unfold l, T. apply rlist_off. intros j Hj E. rewrite (Z0 j Hj E), Rmult_0_l. apply Rabs_R0. }
    assert (PT : 0 <= T) by (rewrite <- ET; apply rlist_pos; intros; apply Rabs_pos).
    assert (LE : 0 <= INR (length l) * eta64 <= 1).
    { split; [apply Rmult_le_pos; [apply pos_INR|lra]|]. eapply Rle_trans; [|apply (n_eta n Hn)]. apply Rmult_le_compat_r; [lra|].
      apply le_INR. exact Ll. }
    assert (W3 : forall k, (k <= length l + 1)%nat -> 1 <= (1 + u64) ^ k <= 3).
    { intros k Hk. split; [apply pow_ge_1|]. apply pow_u_le_3. lia. }
    assert (Ft : finite (acc l (fun j => (f j * v j)%num))).
    { apply dot_total; [intros j Hj; pose proof (Hl j Hj); auto|]. rewrite ET. pose proof (W3 (length l + 1)%nat ltac:(lia)) as W.
      apply Rle_lt_trans with (3 * (B + 1)); [apply Rmult_le_compat; lra|].
      apply Rle_lt_trans with (bpow radix2 3 * B); [change (bpow radix2 3) with 8; lra|].
      unfold B. rewrite <- bpow_plus. apply bpow_lt. lia. }
    destruct (dot_error l f v ltac:(intros j Hj; pose proof (Hl j Hj); auto) Ft) as [_ E1].
    rewrite ET in E1. set (t := acc l (fun j => (f j * v j)%num)) in *.
    assert (Dt : double t) by (apply acc_double; intros j Hj; apply mul_double; auto).
    assert (At : Rabs (real t) <= 3 * T + 3).
    { assert (E2 : Rabs (rlist l (fun j => real (f j) * real (v j))) <= T).
      { rewrite <- ET. apply rlist_abs. }
      set (s := rlist l (fun j => real (f j) * real (v j))) in *. replace (real t) with (s + (real t - s)) by ring.
      eapply Rle_trans; [apply Rabs_triang|]. pose proof (W3 (length l) ltac:(lia)) as W. set (w := (1 + u64) ^ length l) in *.
      assert ((w - 1) * T <= 2 * T) by (apply Rmult_le_compat_r; lra).
      assert (INR (length l) * w * eta64 <= 3).
      { replace (INR (length l) * w * eta64) with (w * (INR (length l) * eta64)) by ring. rewrite <- (Rmult_1_r 3). apply Rmult_le_compat; lra. }
      lra. }
    assert (Bd : Rabs (real b - real t) <= 2 * p * Z + 3 * (p * (Z + e)) + 3).
    { replace (real b - real t) with (real b + - real t) by ring. eapply Rle_trans; [apply Rabs_triang|]. rewrite Rabs_Ropp.
      assert ((1 + q) * p * Z <= 2 * p * Z) by (apply Rmult_le_compat_r; [lra|]; apply Rmult_le_compat_r; lra). lra. }
    assert (Bd2 : 2 * p * Z + 3 * (p * (Z + e)) + 3 <= p * (5 * (Z + e)) + 3) by (pose proof (Rmult_le_pos p e ltac:(lra) Pe); lra).
    assert (Fn : finite (b - t)%num).
    { apply sub_finite; auto. apply (rnd_lt _ (990 + 3)); [lia|]. rewrite bmul. change (bpow radix2 3) with 8. fold B. lra. }
    assert (Dn : double (b - t)%num) by now apply sub_double.
    unfold quot. fold l. fold t. apply div_finite; auto.
    { rewrite Em. intros E0. unfold p in Pp. rewrite E0, Rabs_R0 in Pp. lra. }
    destruct (sub_err b t Db Dt Fn) as (dl & Hdl & En). rewrite En, Em.
    apply (rnd_lt _ (990 + 4)); [lia|]. rewrite bmul. change (bpow radix2 4) with 16. fold B.
    unfold Rdiv. rewrite Rabs_mult, Rabs_inv. fold p. pose proof (err_abs (real b - real t) dl Hdl) as H1.
    assert (H2 : Rabs ((real b - real t) * (1 + dl)) <= (1 + / 1024) * (p * (5 * (Z + e)) + 3)).
    { eapply Rle_trans; [exact H1|]. apply Rmult_le_compat; try lra. apply Rabs_pos. }
    apply Rle_trans with ((1 + / 1024) * (p * (5 * (Z + e)) + 3) * / p).
    { apply Rmult_le_compat_r; [left; now apply Rinv_0_lt_compat|exact H2]. }
    replace ((1 + / 1024) * (p * (5 * (Z + e)) + 3) * / p) with ((1 + / 1024) * (5 * (Z + e) + 3 * / p)) by (field; lra).
    assert (H3 : / p <= / d0) by (apply Rinv_le_contravar; unfold p; lra). lra. }
  split; [exact F|].
  destruct (quot_error keep f v i n b Hi K Df (Ff i Hi) Dv Db F) as (_ & N0 & R).
  set (x := real (quot keep f v i n b)) in *.
  set (so := roff n i (fun j => real (f j) * real (v j))) in *. set (T := roff n i (fun j => Rabs (real (f j) * real (v j)))) in *.
  assert (PT : 0 <= T) by (apply roff_nonneg; intros; apply Rabs_pos).
  assert (R' : Rabs (real (f i) * x - (real b - so)) <= row_bound (m + 2) ((1 + q) * p * Z + q * p * (Z + e)) (real (f i))).
  { eapply Rle_trans; [exact R|]. eapply Rle_trans; [apply row_bound_mono with (n := (m + 2)%nat); [lia|pose proof (Rabs_pos (real b)); lra]|].
    apply row_bound_le. lra. }
  clear R. set (w := (1 + u64) ^ (m + 2)) in *. assert (W1 : 1 <= w) by apply pow_ge_1.
  assert (D : Rabs (so - roff n i (fun j => real (f j) * z j)) <= q * p * e).
  { eapply Rle_trans; [|apply (off_scal (fun j => real (v j) - z j) e Pe He)]. unfold so, roff. rewrite rsum_minus.
    eapply Rle_trans; [apply rsum_abs|]. apply rsum_le. intros j Hj. destruct (j =? i)%nat; [rewrite Rminus_0_r, Rabs_R0; lra|].
    rewrite <- Rmult_minus_distr_l. lra. }
  assert (Eb : real b = real (f i) * z i + roff n i (fun j => real (f j) * z j)) by (rewrite <- Hz; exact (rsum_split n i (fun j => real (f j) * z j) Hi)).
  set (sz := roff n i (fun j => real (f j) * z j)) in *.
  assert (Main : p * Rabs (x - z i) <= row_bound (m + 2) ((1 + q) * p * Z + q * p * (Z + e)) (real (f i)) + q * p * e).
  { unfold p at 1. rewrite <- Rabs_mult.
    replace (real (f i) * (x - z i)) with ((real (f i) * x - (real b - so)) - (so - sz)) by (rewrite Eb; ring).
    unfold Rminus at 1. eapply Rle_trans; [apply Rabs_triang|]. rewrite Rabs_Ropp. apply Rplus_le_compat; auto. }
  unfold row_bound in Main. fold p in Main. fold w in Main. unfold jac_rate, row_noise. fold w.
  apply Rmult_le_reg_l with p; auto. eapply Rle_trans; [exact Main|].
  assert (X : INR (m + 2) * w * eta64 <= p * (INR (m + 2) / d0 * w * eta64)).
  { assert (Y : 0 <= INR (m + 2) * w * eta64) by (apply Rmult_le_pos; [apply Rmult_le_pos; [apply pos_INR|lra]|lra]).
    replace (p * (INR (m + 2) / d0 * w * eta64)) with (INR (m + 2) * w * eta64 * (p / d0)) by (field; lra).
    rewrite <- (Rmult_1_r (INR (m + 2) * w * eta64)) at 1. apply Rmult_le_compat_l; auto.
    apply Rmult_le_reg_r with d0; auto. unfold Rdiv. rewrite Rmult_assoc, Rinv_l by lra. unfold p. lra. }
  lra.
Qed.
End Row.

Lemma jac_rate_pos m q : 0 <= q -> 0 <= jac_rate m q.
Proof. intros H. apply Rmult_le_pos; auto. pose proof (pow_ge_1 (m + 2)). lra. Qed.
Lemma row_noise_pos m q d0 Z : 0 <= q -> 0 < d0 -> 0 <= Z -> 0 < row_noise m q d0 Z.
Proof.
  intros Hq Hd HZ. unfold row_noise. pose proof (pow_ge_1 (m + 2)) as W. set (w := (1 + u64) ^ (m + 2)) in *.
  assert (0 <= (w - 1) * ((1 + 2 * q) * Z)) by (apply Rmult_le_pos; [lra|apply Rmult_le_pos; lra]).
  assert (0 <= INR (m + 2) / d0) by (apply Rmult_le_pos; [apply pos_INR|left; now apply Rinv_0_lt_compat]).
  assert (0 < (INR (m + 2) / d0 + 1) * w * eta64) by (apply Rmult_lt_0_compat; [apply Rmult_lt_0_compat; lra|exact eta64_pos]). lra.
Qed.
Lemma sor_noise_pos m q d0 Z w : 0 <= q -> 0 < d0 -> 0 <= Z -> 0 < sor_noise m q d0 Z w.
Proof.
  intros Hq Hd HZ. unfold sor_noise. pose proof (row_noise_pos m q d0 Z Hq Hd HZ) as N. pose proof u64_pos as U. pose proof eta64_pos as V.
  assert (0 <= Rabs w * (1 + u64) ^ 2 * row_noise m q d0 Z).
  { apply Rmult_le_pos; [apply Rmult_le_pos; [apply Rabs_pos|apply pow_le; lra]|lra]. }
  assert (0 <= (((1 + u64) ^ 3 - 1) * Rabs (1 - w) + ((1 + u64) ^ 2 - 1) * Rabs w) * Z).
  { apply Rmult_le_pos; auto. pose proof (pow_ge_1 3). pose proof (pow_ge_1 2).
    assert (0 <= ((1 + u64) ^ 3 - 1) * Rabs (1 - w)) by (apply Rmult_le_pos; [lra|apply Rabs_pos]).
    assert (0 <= ((1 + u64) ^ 2 - 1) * Rabs w) by (apply Rmult_le_pos; [lra|apply Rabs_pos]). lra. }
  assert (0 < 2 * (1 + u64) * eta64) by (apply Rmult_lt_0_compat; lra). lra.
Qed.

(** ** Mixing with the old value *)
Section Blend.
Variables (w o t : NumF64) (zi q d0 Z e : R) (m : nat).
Let rw := real w.
Hypotheses (Dw : double w) (Fw : finite w) (Do : double o) (Fo : finite o) (Dt : double t) (Ft : finite t)
  (Hq : 0 <= q) (Hd0 : 0 < d0) (HZ : Rabs zi <= Z) (Ho : Rabs (real o - zi) <= e) (Ht : Rabs (real t - zi) <= jac_rate m q * e + row_noise m q d0 Z)
  (Hr : sor_rate m q rw < 1) (Hs : sor_rate m q rw * e + sor_noise m q d0 Z rw <= e) (HB : Z + e <= powerRZ 2 990).
Lemma blend_near : finite (blend w o t) /\ Rabs (real (blend w o t) - zi) <= sor_rate m q rw * e + sor_noise m q d0 Z rw.
Proof.
  rewrite P990 in HB. set (B := bpow radix2 990) in *. pose proof B990 as B1. fold B in B1.
  pose proof u64_pos as U. pose proof eta64_pos as V. pose proof small_u as U1.
  assert (PZ : 0 <= Z) by (eapply Rle_trans; [apply Rabs_pos|exact HZ]).
  assert (Pe : 0 <= e) by (eapply Rle_trans; [apply Rabs_pos|exact Ho]).
  pose proof (jac_rate_pos m q Hq) as PJ. pose proof (row_noise_pos m q d0 Z Hq Hd0 PZ) as PN.
  unfold sor_rate, sor_noise in *. set (J := jac_rate m q) in *. set (N := row_noise m q d0 Z) in *.
  set (W0 := Rabs (1 - rw)) in *. set (W := Rabs rw) in *. assert (P0 : 0 <= W0) by apply Rabs_pos. assert (PW : 0 <= W) by apply Rabs_pos.
  set (u := u64) in *. set (eta := eta64) in *.
  assert (Q2 : 1 <= (1 + u) ^ 2) by apply pow_ge_1. assert (Q3 : 1 <= (1 + u) ^ 3) by apply pow_ge_1.
  set (g2 := (1 + u) ^ 2) in *. set (g3 := (1 + u) ^ 3) in *.
  assert (X1 : 0 <= W * g2 * J) by (apply Rmult_le_pos; [apply Rmult_le_pos|]; lra).
  assert (X2 : W0 * 1 <= W0 * g3) by (apply Rmult_le_compat_l; lra).
  assert (L0 : W0 <= 1) by lra.
  assert (LW : W <= 2).
  { unfold W. replace rw with (1 - (1 - rw)) by ring. eapply Rle_trans; [apply Rabs_triang|]. rewrite Rabs_R1, Rabs_Ropp. fold W0. lra. }
  assert (Ao : Rabs (real o) <= Z + e).
  { replace (real o) with (zi + (real o - zi)) by ring. eapply Rle_trans; [apply Rabs_triang|]. lra. }
  assert (At : Rabs (real t) <= Z + (J * e + N)).
  { replace (real t) with (zi + (real t - zi)) by ring. eapply Rle_trans; [apply Rabs_triang|]. lra. }
  assert (PJe : 0 <= J * e + N) by (pose proof (Rmult_le_pos J e PJ Pe); lra).
  (* |w t| stays small *)
  assert (Awt : W * (J * e + N) <= e).
  { assert (Y1 : 0 <= W0 * g3 * e) by (apply Rmult_le_pos; [apply Rmult_le_pos|]; lra).
    assert (Y2 : 0 <= ((g3 - 1) * W0 + (g2 - 1) * W) * Z).
    { apply Rmult_le_pos; auto. assert (0 <= (g3 - 1) * W0) by (apply Rmult_le_pos; lra). assert (0 <= (g2 - 1) * W) by (apply Rmult_le_pos; lra). lra. }
    assert (Y3 : 0 <= 2 * (1 + u) * eta) by (apply Rmult_le_pos; lra).
    assert (Y4 : W * (J * e + N) * 1 <= W * (J * e + N) * g2) by (apply Rmult_le_compat_l; [apply Rmult_le_pos; lra|lra]). lra. }
  unfold blend. assert (D1 : double (n1 : NumF64)) by reflexivity.
  assert (F1 : finite (n1 : NumF64)) by exact I.
  assert (Fs : finite (n1 - w)%num).
  { apply sub_finite; auto. rewrite real_n1. apply (rnd_lt _ 1); [lia|]. change (bpow radix2 1) with 2. fold rw. fold W0. lra. }
  assert (Ds : double (n1 - w)%num) by now apply sub_double.
  destruct (sub_err n1 w D1 Dw Fs) as (a1 & H1 & E1). rewrite real_n1 in E1. fold rw in E1.
  assert (As : Rabs (real (n1 - w)%num) <= (1 + u) * W0) by (rewrite E1; now apply err_abs).
  assert (Fp : finite ((n1 - w) * o)%num).
  { apply mul_finite; auto. apply (rnd_lt _ (990 + 1)); [lia|]. rewrite bmul. change (bpow radix2 1) with 2. fold B. rewrite Rabs_mult.
    apply Rmult_le_compat; try apply Rabs_pos; [|lra]. eapply Rle_trans; [exact As|].
    assert ((1 + u) * W0 <= (1 + u) * 1) by (apply Rmult_le_compat_l; lra). lra. }
  assert (Fq : finite (w * t)%num).
  { apply mul_finite; auto. apply (rnd_lt _ (990 + 2)); [lia|]. rewrite bmul. change (bpow radix2 2) with 4. fold B. rewrite Rabs_mult. fold rw. fold W.
    apply Rle_trans with (W * (Z + (J * e + N))); [apply Rmult_le_compat_l; auto|]. assert (W * Z <= 2 * Z) by (apply Rmult_le_compat_r; auto). lra. }
  destruct (mul_err _ _ Ds Do Fp) as (a2 & h1 & H2 & He1 & E2). destruct (mul_err _ _ Dw Dt Fq) as (a3 & h2 & H3 & He2 & E3).
  assert (Dp : double ((n1 - w) * o)%num) by now apply mul_double. assert (Dq : double (w * t)%num) by now apply mul_double.
  fold u in H1, H2, H3. fold eta in He1, He2. rewrite E1 in E2. fold rw in E3. set (ro := real o) in *. set (rt := real t) in *.
  assert (I1 : Rabs ((1 - rw) * ro) <= W0 * (Z + e)) by (rewrite Rabs_mult; apply Rmult_le_compat_l; auto).
  assert (I2 : Rabs (rw * rt) <= W * (Z + (J * e + N))) by (rewrite Rabs_mult; apply Rmult_le_compat_l; auto).
  assert (A2 : Rabs ((1 - rw) * (1 + a1) * ro * (1 + a2) - (1 - rw) * ro) <= (g2 - 1) * Rabs ((1 - rw) * ro)).
  { replace ((1 - rw) * (1 + a1) * ro * (1 + a2) - (1 - rw) * ro) with ((1 - rw) * ro * (a1 + a2 + a1 * a2)) by ring.
    rewrite Rabs_mult, Rmult_comm. apply Rmult_le_compat_r; [apply Rabs_pos|]. eapply Rle_trans; [apply Rabs_triang|].
    pose proof (Rabs_triang a1 a2). rewrite (Rabs_mult a1 a2). assert (Rabs a1 * Rabs a2 <= u * u) by (apply Rmult_le_compat; auto; apply Rabs_pos).
    unfold g2. simpl. lra. }
  assert (A3 : Rabs (rw * rt * (1 + a3) - rw * rt) <= u * Rabs (rw * rt)).
  { replace (rw * rt * (1 + a3) - rw * rt) with (rw * rt * a3) by ring. rewrite Rabs_mult, Rmult_comm. apply Rmult_le_compat_r; [apply Rabs_pos|auto]. }
  set (s1 := (1 - rw) * ro) in *. set (s2 := rw * rt) in *.
  set (v1 := real ((n1 - w) * o)%num) in *. set (v2 := real (w * t)%num) in *.
  assert (C1 : Rabs (v1 + v2 - (s1 + s2)) <= (g2 - 1) * Rabs s1 + u * Rabs s2 + 2 * eta).
  { rewrite E2, E3. replace ((1 - rw) * (1 + a1) * ro * (1 + a2) + h1 + (s2 * (1 + a3) + h2) - (s1 + s2))
      with (((1 - rw) * (1 + a1) * ro * (1 + a2) - s1) + (s2 * (1 + a3) - s2) + (h1 + h2)) by ring.
    eapply Rle_trans; [apply Rabs_triang|]. eapply Rle_trans; [apply Rplus_le_compat_r, Rabs_triang|]. pose proof (Rabs_triang h1 h2). lra. }
  assert (C2 : Rabs (s1 + s2) <= Rabs s1 + Rabs s2) by apply Rabs_triang.
  assert (Ss1 : W0 * (Z + e) <= 1 * (Z + e)) by (apply Rmult_le_compat_r; lra).
  assert (SsZ : W * Z <= 2 * Z) by (apply Rmult_le_compat_r; lra).
  assert (G2 : g2 <= 1 + 3 * / 1024) by (unfold g2; simpl; assert (u * u <= / 1024 * / 1024) by (apply Rmult_le_compat; lra); lra).
  assert (C3 : Rabs (v1 + v2) <= 8 * B).
  { replace (v1 + v2) with ((s1 + s2) + (v1 + v2 - (s1 + s2))) by ring. eapply Rle_trans; [apply Rabs_triang|].
    assert ((g2 - 1) * Rabs s1 <= 3 * / 1024 * Rabs s1) by (apply Rmult_le_compat_r; [apply Rabs_pos|lra]).
    assert (u * Rabs s2 <= / 1024 * Rabs s2) by (apply Rmult_le_compat_r; [apply Rabs_pos|lra]).
    assert (eta <= 1).
    { unfold eta. rewrite eta64_bpow. pose proof (bpow_le radix2 (-1074) 0 ltac:(lia)) as Y. pose proof (bpow_ge_0 radix2 (-1074)). simpl (bpow radix2 0) in Y. lra. }
    pose proof (Rabs_pos s1). pose proof (Rabs_pos s2). lra. }
  assert (Fin : finite ((n1 - w) * o + w * t)%num).
  { apply add_finite; auto. fold v1 v2. apply (rnd_lt _ (990 + 3)); [lia|]. rewrite bmul. change (bpow radix2 3) with 8. exact C3. }
  split; [exact Fin|].
  destruct (add_err _ _ Dp Dq Fin) as (a4 & H4 & E4). fold u in H4. fold v1 v2 in E4. rewrite E4.
  replace ((v1 + v2) * (1 + a4) - zi) with ((v1 + v2 - (s1 + s2)) * (1 + a4) + (s1 + s2) * a4 + ((1 - rw) * (ro - zi) + rw * (rt - zi)))
    by (unfold s1, s2; ring).
  eapply Rle_trans; [apply Rabs_triang|]. eapply Rle_trans; [apply Rplus_le_compat_r, Rabs_triang|].
  assert (T1 : Rabs ((v1 + v2 - (s1 + s2)) * (1 + a4)) <= (1 + u) * ((g2 - 1) * Rabs s1 + u * Rabs s2 + 2 * eta)).
  { eapply Rle_trans; [now apply err_abs|]. apply Rmult_le_compat_l; [unfold u in *; lra|exact C1]. }
  assert (T2 : Rabs ((s1 + s2) * a4) <= u * (Rabs s1 + Rabs s2)).
  { rewrite Rabs_mult, Rmult_comm. apply Rmult_le_compat; auto; apply Rabs_pos. }
  assert (T3 : Rabs ((1 - rw) * (ro - zi) + rw * (rt - zi)) <= W0 * e + W * (J * e + N)).
  { eapply Rle_trans; [apply Rabs_triang|]. rewrite !Rabs_mult. apply Rplus_le_compat; apply Rmult_le_compat_l; auto. }
  assert (S1 : (g3 - 1) * Rabs s1 <= (g3 - 1) * (W0 * (Z + e))) by (apply Rmult_le_compat_l; lra).
  assert (S2 : (g2 - 1) * Rabs s2 <= (g2 - 1) * (W * (Z + (J * e + N)))) by (apply Rmult_le_compat_l; lra).
  assert (Eg : (1 + u) * (g2 - 1) + u = g3 - 1) by (unfold g2, g3; ring). assert (Eg2 : (1 + u) * u + u = g2 - 1) by (unfold g2; ring).
  assert (Fx : (1 + u) * ((g2 - 1) * Rabs s1 + u * Rabs s2 + 2 * eta) + u * (Rabs s1 + Rabs s2) = (g3 - 1) * Rabs s1 + (g2 - 1) * Rabs s2 + 2 * (1 + u) * eta).
  { rewrite <- Eg, <- Eg2. ring. }
  lra.
Qed.
End Blend.

(** ** The stopping test *)
Lemma nth_near n z e y i : within n z e y -> (i < n)%nat -> double (nth i y n0) /\ finite (nth i y n0) /\ Rabs (real (nth i y n0) - z i) <= e.
Proof. intros (L & D & H) Hi. split; [now apply nth_doubles with n|now apply H]. Qed.
Lemma within_le n z e e' y : e <= e' -> within n z e y -> within n z e' y.
Proof. intros H (L & D & W). split; [exact L|]. split; [exact D|]. intros i Hi. destruct (W i Hi) as [F B]. split; [exact F|lra]. Qed.

Lemma conv_settled n z t (x y : list NumF64) eps : within n z t x -> within n z t y -> (Z.of_nat n < 2 ^ 53)%Z -> t <= powerRZ 2 400 ->
  double eps -> finite eps -> Rabs (real eps) <= powerRZ 2 500 ->
  exists c, conv_test (eps * eps)%num x y = Ok c /\ (settled n (real eps) t -> c = true).
Proof.
  intros Wx Wy Hn Ht De Fe He. pose proof (proj1 Wx) as Lx. pose proof (proj1 Wy) as Ly.
  pose proof u64_pos as U. pose proof eta64_pos as V. pose proof small_u as U1.
  replace (powerRZ 2 400) with (bpow radix2 400) in Ht by exact (bpow_powerRZ radix2 400).
  replace (powerRZ 2 500) with (bpow radix2 500) in He by exact (bpow_powerRZ radix2 500).
  set (D := fun i => (nth i y n0 - nth i x n0)%num : NumF64).
  set (r := fun i => real (nth i y n0) - real (nth i x n0)).
  assert (Hr : forall i, (i < n)%nat -> Rabs (r i) <= 2 * t).
  { intros i Hi. destruct (nth_near n z t x i Wx Hi) as (_ & _ & Bx). destruct (nth_near n z t y i Wy Hi) as (_ & _ & By). unfold r.
    replace (real (nth i y n0) - real (nth i x n0)) with ((real (nth i y n0) - z i) + - (real (nth i x n0) - z i)) by ring.
    eapply Rle_trans; [apply Rabs_triang|]. rewrite Rabs_Ropp. lra. }
  assert (FD : forall i, (i < n)%nat -> finite (D i) /\ double (D i)).
  { intros i Hi. destruct (nth_near n z t x i Wx Hi) as (Dx & Fx & _). destruct (nth_near n z t y i Wy Hi) as (Dy & Fy & _).
    split; [|now apply sub_double]. apply sub_finite; auto. apply (rnd_lt _ 401); [lia|].
    replace (bpow radix2 401) with (2 * bpow radix2 400) by (change 401%Z with (1 + 400)%Z; rewrite bpow_plus; reflexivity).
    eapply Rle_trans; [exact (Hr i Hi)|lra]. }
  assert (ED : forall i, (i < n)%nat -> Rabs (real (D i)) <= (1 + u64) * (2 * t)).
  { intros i Hi. destruct (nth_near n z t x i Wx Hi) as (Dx & _). destruct (nth_near n z t y i Wy Hi) as (Dy & _).
    destruct (sub_err (nth i y n0) (nth i x n0) Dy Dx (proj1 (FD i Hi))) as (d & Hd & E). unfold D. rewrite E.
    eapply Rle_trans; [now apply err_abs|]. apply Rmult_le_compat_l; [lra|]. exact (Hr i Hi). }
  unfold conv_test, v_sub, v_sub_eq. rewrite (inplace_ok nsub y x) by lia. cbn [bind].
  unfold v_magSqr. rewrite dot_ok by reflexivity. cbn [bind].
  rewrite zip_length by lia. rewrite Ly.
  set (s := bigsum n (fun i => nth i (zip nsub y x) n0 * nth i (zip nsub y x) n0)%num).
  assert (Es : s = acc (seq 0 n) (fun i => D i * D i)%num).
  { unfold s. rewrite bigsum_acc. apply acc_ext. intros i Hi. apply in_seq in Hi. rewrite zip_nth by lia. reflexivity. }
  assert (Dd : forall i, In i (seq 0 n) -> double (D i * D i)%num).
  { intros i Hi. apply in_seq in Hi. destruct (FD i ltac:(lia)). now apply mul_double. }
  assert (Ds : double s) by (rewrite Es; now apply acc_double).
  set (R := rlist (seq 0 n) (fun i => Rabs (real (D i) * real (D i)))).
  assert (PR : 0 <= R) by (apply rlist_pos; intros; apply Rabs_pos).
  assert (BR : R <= INR n * ((1 + u64) ^ 2 * (2 * t) ^ 2)).
  { unfold R. rewrite <- (seq_length n 0) at 2. rewrite <- rlist_const. apply rlist_le. intros i Hi. apply in_seq in Hi. rewrite Rabs_mult.
    replace ((1 + u64) ^ 2 * (2 * t) ^ 2) with ((1 + u64) * (2 * t) * ((1 + u64) * (2 * t))) by ring.
    apply Rmult_le_compat; try apply Rabs_pos; apply ED; lia. }
  pose proof (n_eta n Hn) as NE. assert (PE : 0 <= INR n * eta64) by (apply Rmult_le_pos; [apply pos_INR|lra]).
  assert (Fs : finite s).
  { rewrite Es. apply dot_total.
    - intros i Hi. apply in_seq in Hi. destruct (FD i ltac:(lia)). auto.
    - rewrite seq_length. fold R. assert (E3 : (1 + u64) ^ (n + 1) <= 3) by (apply pow_u_le_3; lia).
      assert (B1 : R <= bpow radix2 860).
      { destruct n as [|k].
        { unfold R. cbn [seq rlist]. apply bpow_ge_0. }
        assert (T0 : 0 <= 2 * t) by (eapply Rle_trans; [apply Rabs_pos|]; exact (Hr O ltac:(lia))).
        set (n := S k) in *. eapply Rle_trans; [exact BR|].
        apply Rle_trans with (bpow radix2 53 * (2 * (bpow radix2 401 * bpow radix2 401))).
        - apply Rmult_le_compat.
          + apply pos_INR.
          + apply Rmult_le_pos; apply pow_le; lra.
          + rewrite INR_IZR_INZ. change (bpow radix2 53) with (IZR (2 ^ 53)). apply IZR_le. lia.
          + assert (2 * t <= bpow radix2 401).
            { replace (bpow radix2 401) with (2 * bpow radix2 400) by (change 401%Z with (1 + 400)%Z; rewrite bpow_plus; reflexivity). lra. }
            apply Rmult_le_compat; [apply pow_le; lra|apply pow_le; lra| |].
            * simpl. assert (u64 * u64 <= / 1024 * / 1024) by (apply Rmult_le_compat; lra). lra.
            * simpl. rewrite Rmult_1_r. apply Rmult_le_compat; auto.
        - replace 2 with (bpow radix2 1) by (simpl; lra). rewrite <- !bpow_plus. apply bpow_le. lia. }
      apply Rle_lt_trans with (3 * (bpow radix2 860 + 1)).
      + apply Rmult_le_compat; try lra. pose proof (pow_ge_1 (n + 1)). lra.
      + pose proof (bpow_le radix2 0 860 ltac:(lia)) as Y. simpl (bpow radix2 0) in Y.
        apply Rle_lt_trans with (bpow radix2 4 * bpow radix2 860).
        * change (bpow radix2 4) with 16. lra.
        * rewrite <- bpow_plus. apply bpow_lt. lia. }
  destruct (nabs_real s) as (Ra & Fa & Da).
  assert (Fa' : finite (nabs s)) by now apply Fa. specialize (Da Ds).
  assert (Dee : double (eps * eps)%num) by now apply mul_double.
  assert (Fee : finite (eps * eps)%num).
  { apply mul_finite; auto. apply (rnd_lt _ 1000); [lia|]. rewrite Rabs_mult. change 1000%Z with (500 + 500)%Z. rewrite bpow_plus.
    apply Rmult_le_compat; auto; apply Rabs_pos. }
  assert (En : nisnan (nabs s) = false).
  { revert Fa'. generalize (nabs s). intros [s0|s0| |s0 m0 e0] F; try reflexivity; destruct F. }
  rewrite En, (finite_not_inf _ Fa'). cbn [orb]. eexists. split; [reflexivity|]. intros Hst.
  apply (leb_real _ _ Da Dee Fa' Fee). rewrite Ra.
  destruct (mul_err _ _ De De Fee) as (d3 & e3 & Hd3 & He3 & E3). rewrite E3. apply Rabs_le_inv in Hd3, He3.
  set (ee := real eps) in *.
  assert (L : (1 - u64) * ee ^ 2 - eta64 <= ee * ee * (1 + d3) + e3).
  { replace (ee * ee * (1 + d3)) with ((1 + d3) * ee ^ 2) by ring.
    assert ((1 - u64) * ee ^ 2 <= (1 + d3) * ee ^ 2) by (apply Rmult_le_compat_r; [apply pow2_ge_0|lra]). lra. }
  assert (Ub : Rabs (real s) <= (1 + u64) ^ n * R + INR n * (1 + u64) ^ n * eta64).
  { rewrite Es in Fs |- *. destruct (dot_error (seq 0 n) D D) as [_ B].
    - intros i Hi. apply in_seq in Hi. destruct (FD i ltac:(lia)). auto.
    - exact Fs.
    - rewrite seq_length in B. fold R in B. set (a := real (acc (seq 0 n) (fun i => (D i * D i)%num))) in *.
      assert (B2 : Rabs (rlist (seq 0 n) (fun i => real (D i) * real (D i))) <= R) by apply rlist_abs.
      set (q := rlist (seq 0 n) (fun i => real (D i) * real (D i))) in *. replace a with (q + (a - q)) by ring.
      eapply Rle_trans; [apply Rabs_triang|]. lra. }
  eapply Rle_trans; [exact Ub|]. unfold settled in Hst. pose proof (pow_ge_1 n) as Pn. rewrite pow_add in Hst. set (w := (1 + u64) ^ n) in *.
  assert (w * R <= w * (INR n * ((1 + u64) ^ 2 * (2 * t) ^ 2))) by (apply Rmult_le_compat_l; [lra|exact BR]).
  lra.
Qed.

(** ** The iteration *)
Section Contract.
Variables (sweep : list NumF64 -> list NumF64 -> res (list NumF64)) (n : nat) (z err : nat -> R) (NM : nat -> list NumF64 -> Prop) (eps : NumF64).
Hypotheses (Hstep : forall k x xm, within n z (err k) x -> NM k xm -> exists y, sweep x xm = Ok y /\ within n z (err (S k)) y)
  (HNM : forall k x, within n z (err k) x -> NM k x) (Hdec : forall k, err (S k) <= err k) (Hn : (Z.of_nat n < 2 ^ 53)%Z) (Hb : err O <= powerRZ 2 400)
  (De : double eps) (Fe : finite eps) (He : Rabs (real eps) <= powerRZ 2 500).
Lemma err_le k j : (k <= j)%nat -> err j <= err k.
Proof. induction 1 as [|j Hj IH]; [lra|]. eapply Rle_trans; [apply Hdec|exact IH]. Qed.
Lemma sweeps_contract : forall fuel it maxIter x xm, (it + fuel = maxIter)%nat -> within n z (err it) x -> NM it xm ->
  exists y k, sweeps sweep fuel it maxIter (eps * eps)%num x xm = Ok (y, k) /\ (k <= maxIter)%nat /\ within n z (err k) y /\
    forall j, (it <= j)%nat -> (j < maxIter)%nat -> settled n (real eps) (err j) -> (k <= j + 1)%nat.
Proof.
  induction fuel as [|fuel IH]; intros it maxIter x xm Hm Wx Wm; cbn [sweeps].
  - exists x, maxIter. replace maxIter with it by lia. split; [reflexivity|]. split; [lia|]. split; [exact Wx|]. intros j H1 H2. lia.
  - destruct (Hstep it x xm Wx Wm) as (y & Ey & Wy). rewrite Ey. cbn [bind].
    assert (Wy' : within n z (err it) y) by (eapply within_le; [apply Hdec|exact Wy]).
    assert (Hsm : err it <= powerRZ 2 400) by (eapply Rle_trans; [apply (err_le 0); lia|exact Hb]).
    destruct (conv_settled n z (err it) x y eps Wx Wy' Hn Hsm De Fe He) as (c & Ec & Hc). rewrite Ec. cbn [bind]. destruct c.
    + exists y, (it + 1)%nat. split; [reflexivity|]. split; [lia|]. split; [now rewrite Nat.add_1_r|]. intros; lia.
    + destruct (IH (S it) maxIter y y ltac:(lia) Wy (HNM _ _ Wy)) as (y' & k & E & Hk & Wk & Hj). exists y', k. split; [exact E|].
      split; [exact Hk|]. split; [exact Wk|]. intros j H1 H2 H3. destruct (Nat.eq_dec j it) as [->|Hne].
      * apply Hc in H3. discriminate.
      * apply Hj; auto. lia.
Qed.
End Contract.

(** ** The solvers *)
Section Solvers.
Context {M : RowMat NumF64}.
Hypothesis HR : RowReads M.
Variables (A : M) (n : nat) (a : nat -> nat -> NumF64) (b : list NumF64) (z : nat -> R) (q d0 d Z e0 : R) (m : nat).
Hypotheses (HA : MatI.holds A n n a) (Hb : length b = n) (Hn : (Z.of_nat n < 2 ^ 53)%Z) (Da : doubles2 n n a) (Fa : all_finite n a)
  (Db : doubles b) (Fb : forall i, (i < n)%nat -> finite (nth i b n0)) (Hz : exact_solution n a b z) (Hq0 : 0 <= q) (Hq : q <= 1)
  (Hd0 : 0 < d0) (Hdom : dominated n a q d0 d m) (HZ : forall i, (i < n)%nat -> Rabs (z i) <= Z) (PZ : 0 <= Z) (Pe : 0 <= e0) (Hd : 0 <= d).

Lemma moderate_le E e : e <= E -> moderate Z E d0 d -> moderate Z e d0 d.
Proof.
  intros H (H1 & H2 & H3). split; [lra|]. split; auto. eapply Rle_trans; [|exact H2]. apply Rmult_le_compat_l; lra.
Qed.
Lemma row_quot keep (v : nat -> NumF64) i e : (i < n)%nat -> skips keep (a i) n -> (forall j, (j < n)%nat -> double (v j) /\ finite (v j) /\ Rabs (real (v j) - z j) <= e) ->
  moderate Z e d0 d -> finite (quot keep (a i) v i n (nth i b n0)) /\ double (quot keep (a i) v i n (nth i b n0)) /\
  Rabs (real (quot keep (a i) v i n (nth i b n0)) - z i) <= jac_rate m q * e + row_noise m q d0 Z.
Proof.
  intros Hi K Hv HM. destruct (Hdom i Hi) as (H1 & H2 & H3).
  assert (Dbi : double (nth i b n0)) by now apply nth_doubles with n.
  destruct (quot_near keep (a i) v i n (nth i b n0) z q d0 d Z e m) as [F B]; auto.
  - intros j Hj. now apply Hv.
  - intros j Hj. now apply Hv.
  - intros j Hj. now apply Hv.
  - split; [exact F|]. split; [|exact B]. apply quot_double; auto. intros j Hj. now apply Hv.
Qed.

Section Jac.
Let c := jac_rate m q.
Let fl := jac_floor m q d0 Z.
Let err (k : nat) := c ^ k * e0 + fl.
Hypotheses (Hc : c < 1) (HM : moderate Z (e0 + fl) d0 d).
Lemma c_pos : 0 <= c. Proof. now apply jac_rate_pos. Qed.
Lemma fl_pos : 0 < fl.
Proof. apply Rmult_lt_0_compat; [now apply row_noise_pos|]. apply Rinv_0_lt_compat. fold c. lra. Qed.
Lemma err_step k : c * err k + row_noise m q d0 Z = err (S k).
Proof. unfold err, fl, jac_floor. fold c. cbn [pow]. field. lra. Qed.
Lemma err_dec k : err (S k) <= err k.
Proof.
  unfold err. cbn [pow]. pose proof c_pos as P. assert (0 <= c ^ k * e0) by (apply Rmult_le_pos; auto; now apply pow_le).
  assert (c * (c ^ k * e0) <= 1 * (c ^ k * e0)) by (apply Rmult_le_compat_r; lra). lra.
Qed.
Lemma err_moderate k : moderate Z (err k) d0 d.
Proof.
  apply (moderate_le (e0 + fl)); auto. replace (e0 + fl) with (err 0) by (unfold err; cbn [pow]; ring).
  induction k as [|k IH]; [lra|]. eapply Rle_trans; [apply err_dec|exact IH].
Qed.
Lemma jac_contract k x xm : within n z (err k) x -> length xm = n -> exists y, jac_sweep A b x xm = Ok y /\ within n z (err (S k)) y.
Proof.
  intros W Lm. pose proof (proj1 W) as Lx. destruct (jac_sweep_ok HR A n a b HA Hb x xm Lx Lm) as (y & E & Ly & H). exists y. split; auto.
  assert (G : forall i, (i < n)%nat -> double (nth i y n0) /\ finite (nth i y n0) /\ Rabs (real (nth i y n0) - z i) <= err (S k)).
  { intros i Hi. destruct (H i Hi) as (keep & K & ->). destruct (row_quot keep (fun j => nth j x n0) i (err k) Hi K) as (F & D & B).
    - intros j Hj. now apply (nth_near n z (err k) x).
    - apply err_moderate.
    - fold c in B. rewrite err_step in B. auto. }
  split; auto. split; [apply (doubles_nth y n); auto; intros; now apply G|]. intros i Hi. destruct (G i Hi) as (_ & F & B). auto.
Qed.
Lemma jacobi_converges x0 maxIter eps : within n z e0 x0 -> e0 + fl <= powerRZ 2 400 -> double eps -> finite eps -> Rabs (real eps) <= powerRZ 2 500 ->
  exists y k, it_jacobi A b x0 maxIter eps = Ok (y, k) /\ (k <= maxIter)%nat /\ within n z (c ^ k * e0 + fl) y /\
    forall j, (j < maxIter)%nat -> settled n (real eps) (c ^ j * e0 + fl) -> (k <= j + 1)%nat.
Proof.
  intros W HB De Fe He. pose proof (proj1 W) as L0. unfold it_jacobi.
  rewrite (holds_rows _ _ _ _ HA), (holds_cols _ _ _ _ HA). unfold v_size. rewrite Hb, L0, !Nat.eqb_refl. cbn [negb orb].
  rewrite fill_ok. cbn [bind].
  pose proof fl_pos as P.
  destruct (sweeps_contract (jac_sweep A b) n z err (fun _ xm => length xm = n) eps jac_contract (fun k x W => proj1 W) err_dec Hn) with
    (fuel := maxIter) (it := 0%nat) (maxIter := maxIter) (x := x0) (xm := repeat (n0 : NumF64) (length x0)) as (y & k & E & Hk & Wk & Hj); auto.
  - unfold err. cbn [pow]. lra.
  - apply (within_le n z e0); auto. unfold err. cbn [pow]. lra.
  - now rewrite repeat_length.
  - exists y, k. split; [exact E|]. split; [exact Hk|]. split; [exact Wk|]. intros j H1 H2. apply Hj; auto. lia.
Qed.
End Jac.

Section Sor.
Variable w : NumF64.
Let c := sor_rate m q (real w).
Let fl := sor_floor m q d0 Z (real w).
Let err (k : nat) := c ^ k * e0 + fl.
Hypotheses (Dw : double w) (Fw : finite w) (Hc : c < 1) (HM : moderate Z (e0 + fl) d0 d).
Lemma sc_pos : 0 <= c.
Proof.
  unfold c, sor_rate. pose proof (jac_rate_pos m q Hq0). pose proof (pow_ge_1 3). pose proof (pow_ge_1 2).
  assert (0 <= Rabs (1 - real w) * (1 + u64) ^ 3) by (apply Rmult_le_pos; [apply Rabs_pos|lra]).
  assert (0 <= Rabs (real w) * (1 + u64) ^ 2 * jac_rate m q) by (apply Rmult_le_pos; [apply Rmult_le_pos; [apply Rabs_pos|]|]; lra). lra.
Qed.
Lemma sfl_pos : 0 < fl.
Proof. apply Rmult_lt_0_compat; [now apply sor_noise_pos|]. apply Rinv_0_lt_compat. fold c. lra. Qed.
Lemma serr_step k : c * err k + sor_noise m q d0 Z (real w) = err (S k).
Proof. unfold err, fl, sor_floor. fold c. cbn [pow]. field. lra. Qed.
Lemma serr_dec k : err (S k) <= err k.
Proof.
  unfold err. cbn [pow]. pose proof sc_pos as P. assert (0 <= c ^ k * e0) by (apply Rmult_le_pos; auto; now apply pow_le).
  assert (c * (c ^ k * e0) <= 1 * (c ^ k * e0)) by (apply Rmult_le_compat_r; lra). lra.
Qed.
Lemma serr_moderate k : moderate Z (err k) d0 d.
Proof.
  apply (moderate_le (e0 + fl)); auto. replace (e0 + fl) with (err 0) by (unfold err; cbn [pow]; ring).
  induction k as [|k IH]; [lra|]. eapply Rle_trans; [apply serr_dec|exact IH].
Qed.
Lemma sor_contract k x xm : within n z (err k) x -> within n z (err k) xm -> exists y, sor_sweep A b w x xm = Ok y /\ within n z (err (S k)) y.
Proof.
  intros W Wm. pose proof (proj1 W) as Lx. pose proof (proj1 Wm) as Lm.
  destruct (sor_sweep_ok HR A n a b HA Hb w x xm Lx Lm) as (y & E & Ly & H). exists y. split; auto.
  assert (G : forall p, (p <= n)%nat -> forall i, (i < p)%nat -> double (nth i y n0) /\ finite (nth i y n0) /\ Rabs (real (nth i y n0) - z i) <= err (S k)).
  { induction p as [|p IH]; intros Hp i Hi; [lia|]. destruct (Nat.eq_dec i p) as [->|Hne]; [|apply IH; lia]. assert (Hi' : (p < n)%nat) by lia.
    destruct (H p Hi') as (keep & K & ->). destruct (nth_near n z (err k) xm p Wm Hi') as (Dm & Fm & Bm).
    destruct (row_quot keep (mixed p y x) p (err k) Hi' K) as (F & D & B).
    - intros j Hj. unfold mixed. destruct (Nat.ltb_spec j p); [|now apply (nth_near n z (err k) x)].
      destruct (IH ltac:(lia) j ltac:(lia)) as (H1 & H2 & H3). split; [exact H1|]. split; [exact H2|]. eapply Rle_trans; [exact H3|apply serr_dec].
    - apply serr_moderate.
    - destruct (blend_near w (nth p xm n0) (quot keep (a p) (mixed p y x) p n (nth p b n0)) (z p) q d0 Z (err k) m Dw Fw Dm Fm D F Hq0 Hd0 (HZ p Hi') Bm B Hc) as [FB BB].
      + fold c. rewrite serr_step. apply serr_dec.
      + exact (proj1 (serr_moderate k)).
      + split; [now apply blend_double|]. split; [exact FB|]. fold c in BB. rewrite serr_step in BB. exact BB. }
  split; auto. split; [apply (doubles_nth y n); auto; intros i Hi; apply (G n (le_n n) i Hi)|]. intros i Hi. destruct (G n (le_n n) i Hi) as (_ & F & B). auto.
Qed.
Lemma sor_converges x0 maxIter eps : within n z e0 x0 -> Z <= e0 -> e0 + fl <= powerRZ 2 400 -> double eps -> finite eps -> Rabs (real eps) <= powerRZ 2 500 ->
  exists y k, it_sor A b x0 w maxIter eps = Ok (y, k) /\ (k <= maxIter)%nat /\ within n z (c ^ k * e0 + fl) y /\
    forall j, (j < maxIter)%nat -> settled n (real eps) (c ^ j * e0 + fl) -> (k <= j + 1)%nat.
Proof.
  intros W HZ0 HB De Fe He. pose proof (proj1 W) as L0. unfold it_sor.
  rewrite (holds_rows _ _ _ _ HA), (holds_cols _ _ _ _ HA). unfold v_size. rewrite Hb, L0, !Nat.eqb_refl. cbn [negb orb].
  rewrite fill_ok. cbn [bind].
  pose proof sfl_pos as P.
  destruct (sweeps_contract (sor_sweep A b w) n z err (fun k => within n z (err k)) eps sor_contract (fun k x W => W) serr_dec Hn) with
    (fuel := maxIter) (it := 0%nat) (maxIter := maxIter) (x := x0) (xm := repeat (n0 : NumF64) (length x0)) as (y & k & E & Hk & Wk & Hj); auto.
  - unfold err. cbn [pow]. lra.
  - apply (within_le n z e0); auto. unfold err. cbn [pow]. lra.
  - split; [rewrite repeat_length; auto|]. split.
    + intros v Hv. apply repeat_spec in Hv as ->. exact double_zero.
    + intros i Hi. rewrite nth_repeat. split; [exact finite_zero|]. change (real n0) with 0. rewrite Rminus_0_l, Rabs_Ropp.
      eapply Rle_trans; [now apply HZ|]. unfold err. cbn [pow]. lra.
  - exists y, k. split; [exact E|]. split; [exact Hk|]. split; [exact Wk|]. intros j H1 H2. apply Hj; auto. lia.
Qed.
End Sor.
End Solvers.

Lemma settled_le n eps t t' : 0 <= t <= t' -> settled n eps t' -> settled n eps t.
Proof.
  intros H S. unfold settled in *. eapply Rle_trans; [|exact S]. apply Rplus_le_compat_r. apply Rmult_le_compat_r; [pose proof (pow_ge_1 (n + 2)); lra|].
  apply Rmult_le_compat_l; [apply pos_INR|]. apply pow_incr. lra.
Qed.
Lemma power_below c e fl : 0 <= c < 1 -> 0 <= e -> 0 < fl -> exists J, c ^ J * e + fl <= 2 * fl.
Proof.
  intros Hc He Hf. destruct (pow_lt_1_zero c ltac:(rewrite Rabs_pos_eq; lra) (fl / (e + 1)) ltac:(apply Rmult_lt_0_compat; [auto|apply Rinv_0_lt_compat; lra])) as (J & H).
  exists J. specialize (H J ltac:(lia)). rewrite Rabs_pos_eq in H by (apply pow_le; lra).
  assert (X : c ^ J * (e + 1) <= fl).
  { replace fl with (fl / (e + 1) * (e + 1)) by (field; lra). apply Rmult_le_compat_r; lra. }
  pose proof (pow_le c J (proj1 Hc)). lra.
Qed.
Lemma stops_at n eps c e fl : 0 <= c < 1 -> 0 <= e -> 0 < fl -> settled n eps (2 * fl) ->
  exists J, settled n eps (c ^ J * e + fl).
Proof.
  intros Hc He Hf S. destruct (power_below c e fl Hc He Hf) as (J & H). exists J. apply (settled_le n eps _ (2 * fl)); auto. split; auto.
  pose proof (Rmult_le_pos (c ^ J) e (pow_le _ _ (proj1 Hc)) He). lra.
Qed.
