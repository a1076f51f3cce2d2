(** The number of grid points the finite difference programs compute from a width and a step, in doubles. *)
From Coq Require Import ZArith Reals List Arith SpecFloat Lia Lra.
From Flocq Require Import Core.
From Verif Require Import Base Num NumInst FloatSpec F64Flocq GridModel.
Local Open Scope R_scope.

Lemma pow_pos z : (0 <= z)%Z -> powerRZ 2 z = IZR (2 ^ z).
Proof. intros H. rewrite <- (Z2Nat.id z H) at 1. rewrite <- pow_powerRZ. rewrite <- (Z2Nat.id z H) at 2. now rewrite pow_IZR. Qed.
(** The conversion drops the fraction. *)
Lemma truncates x : finite x -> 0 <= real x < IZR (2 ^ 64) -> exists n, size_of_double x = Ok n /\ INR n <= real x < INR n + 1.
Proof.
  intros F R. destruct x as [s|s| |s m e]; try contradiction.
  - exists 0%nat. split; auto. simpl in *. lra.
  - assert (P2 : 0 < powerRZ 2 e) by (apply powerRZ_lt; lra). destruct s.
    { exfalso. cbn [real] in R. assert (IZR (Z.neg m) < 0) by (apply IZR_lt; lia). assert (0 < - IZR (Z.neg m) * powerRZ 2 e) by (apply Rmult_lt_0_compat; lra). lra. }
    cbn [real] in R |- *. unfold size_of_double.
    set (z := if (0 <=? e)%Z then (Z.pos m * 2 ^ e)%Z else (Z.pos m / 2 ^ (- e))%Z).
    assert (B : (0 <= z)%Z /\ IZR z <= IZR (Z.pos m) * powerRZ 2 e < IZR z + 1).
    { unfold z. destruct (Z.leb_spec 0 e) as [He|He].
      - rewrite pow_pos, <- mult_IZR by auto. split; [|lra]. pose proof (Z.pow_nonneg 2 e). lia.
      - assert (Pe : (0 < 2 ^ (- e))%Z) by (apply Z.pow_pos_nonneg; lia).
        assert (Pr : 0 < IZR (2 ^ (- e))) by now apply IZR_lt.
        assert (E : powerRZ 2 e = / IZR (2 ^ (- e))).
        { rewrite <- pow_pos by lia. replace e with (- - e)%Z at 1 by ring. apply powerRZ_neg'. }
        rewrite E. split; [apply Z.div_pos; lia|].
        pose proof (Z.mul_div_le (Z.pos m) _ Pe) as D1. pose proof (Z.mul_succ_div_gt (Z.pos m) _ Pe) as D2.
        apply IZR_le in D1. apply IZR_lt in D2. rewrite mult_IZR in D1, D2. unfold Z.succ in D2. rewrite plus_IZR in D2.
        set (q := IZR (Z.pos m / 2 ^ (- e))) in *. set (d := IZR (2 ^ (- e))) in *. split.
        + apply Rmult_le_reg_r with d; auto. rewrite Rmult_assoc, Rinv_l by lra. lra.
        + apply Rmult_lt_reg_r with d; auto. rewrite Rmult_assoc, Rinv_l by lra. lra. }
    destruct B as [B0 B1].
    assert (L : (z <? 2 ^ 64)%Z = true) by (apply Z.ltb_lt, lt_IZR; lra). rewrite L. exists (Z.to_nat z). split; auto.
    rewrite INR_IZR_INZ, Z2Nat.id by auto. exact B1.
Qed.
Lemma one_int : double n1 /\ finite n1 /\ real n1 = 1.
Proof. split; [reflexivity|]. split; [exact I|]. unfold n1, NumF64, f64_of_Z. simpl. lra. Qed.

(** If the width is exactly n steps there are n + 1 points. *)
Lemma exact_count (w h : NumF64) (n : nat) : double w -> double h -> finite w -> finite h -> real h <> 0 -> (Z.of_nat n < 2 ^ 53)%Z ->
  real w = INR n * real h -> grid_count w h = Ok (S n).
Proof.
  intros Dw Dh Fw Fh Nh Hn E. destruct one_int as (D1 & F1 & R1). unfold grid_count.
  assert (Q : real w / real h = IZR (Z.of_nat n)) by (rewrite E, INR_IZR_INZ; field; auto).
  assert (Rq : rnd (real w / real h) = IZR (Z.of_nat n)) by (rewrite Q; apply rnd_id, int_format; lia).
  assert (Fq : finite (w / h)%num) by (apply div_finite; auto; rewrite Rq; apply int_small; lia).
  assert (Dq : double (w / h)%num) by (apply div_double; auto).
  assert (Eq : real (w / h)%num = IZR (Z.of_nat n)) by (rewrite div_real; auto).
  assert (Rs : rnd (real (w / h)%num + real n1) = IZR (Z.of_nat (S n))).
  { rewrite Eq, R1, <- plus_IZR. replace (Z.of_nat n + 1)%Z with (Z.of_nat (S n)) by lia. apply rnd_id, int_format. lia. }
  assert (Fs : finite (w / h + n1)%num) by (apply add_finite; auto; rewrite Rs; apply int_small; lia).
  assert (Es : real (w / h + n1)%num = IZR (Z.of_nat (S n))) by (rewrite add_real; auto).
  destruct (truncates _ Fs) as (k & Ek & B).
  { rewrite Es. split; [apply IZR_le|apply IZR_lt]; lia. }
  rewrite Ek. f_equal. rewrite Es, INR_IZR_INZ in B. destruct B as [B1 B2]. apply le_IZR in B1. rewrite <- plus_IZR in B2. apply lt_IZR in B2. lia.
Qed.
Lemma quarter_format z : (Z.abs z < 2 ^ 53)%Z -> generic_format radix2 fexp64 (IZR z / 4).
Proof.
  intros H. apply generic_format_FLT. exists (Float radix2 z (-2)); simpl; try lia. unfold F2R. simpl. lra.
Qed.
Lemma rnd_between a b z : generic_format radix2 fexp64 a -> generic_format radix2 fexp64 b -> a <= z <= b -> a <= rnd z <= b.
Proof.
  intros Fa Fb [H1 H2]. assert (P : Prec_gt_0 53) by reflexivity. split.
  - rewrite <- (rnd_id a Fa). apply round_le; auto with typeclass_instances.
  - rewrite <- (rnd_id b Fb). apply round_le; auto with typeclass_instances.
Qed.
Lemma quarter_small z : (Z.abs z < 2 ^ 53)%Z -> Rabs (IZR z / 4) < bpow radix2 1024.
Proof.
  intros H. pose proof (int_small z ltac:(lia)) as S. unfold Rdiv. rewrite Rabs_mult, (Rabs_pos_eq (/ 4)) by lra. pose proof (Rabs_pos (IZR z)). lra.
Qed.
(** If the width is n steps up to a quarter of a step there are n or n + 1 points. *)
Lemma near_count (w h : NumF64) (n : nat) : double w -> double h -> finite w -> finite h -> 0 < real h -> (0 < Z.of_nat n < 2 ^ 50)%Z ->
  Rabs (real w - INR n * real h) <= real h / 4 -> grid_count w h = Ok n \/ grid_count w h = Ok (S n).
Proof.
  intros Dw Dh Fw Fh Ph Hn E. destruct one_int as (D1 & F1 & R1). unfold grid_count.
  set (z := Z.of_nat n) in *.
  assert (Q : IZR (4 * z - 1) / 4 <= real w / real h <= IZR (4 * z + 1) / 4).
  { rewrite minus_IZR, plus_IZR, mult_IZR. rewrite INR_IZR_INZ in E. fold z in E. unfold Rabs in E.
    assert (E' : - (real h / 4) <= real w - IZR z * real h <= real h / 4) by (destruct (Rcase_abs _) in E; lra).
    split; [apply Rmult_le_reg_r with (real h)|apply Rmult_le_reg_r with (real h)]; auto; unfold Rdiv; rewrite ?(Rmult_assoc (real w)), ?Rinv_l by lra; lra. }
  assert (B : IZR (4 * z - 1) / 4 <= rnd (real w / real h) <= IZR (4 * z + 1) / 4) by (apply rnd_between; auto; apply quarter_format; lia).
  assert (Sm : forall r, IZR (4 * z - 1) / 4 <= r <= IZR (4 * (z + 1) + 1) / 4 -> Rabs r < bpow radix2 1024).
  { intros r Hr. pose proof (quarter_small (4 * (z + 1) + 1) ltac:(lia)) as S. assert (0 <= IZR (4 * z - 1)) by (apply IZR_le; lia).
    assert (0 <= IZR (4 * (z + 1) + 1)) by (apply IZR_le; lia). rewrite Rabs_pos_eq in * by lra. lra. }
  assert (M : IZR (4 * (z + 1) - 1) / 4 = IZR (4 * z - 1) / 4 + 1) by (rewrite !minus_IZR, !mult_IZR, plus_IZR; lra).
  assert (M' : IZR (4 * (z + 1) + 1) / 4 = IZR (4 * z + 1) / 4 + 1) by (rewrite !plus_IZR, !mult_IZR, plus_IZR; lra).
  assert (Fq : finite (w / h)%num) by (apply div_finite; auto; [lra|apply Sm; lra]).
  assert (Dq : double (w / h)%num) by (apply div_double; auto).
  assert (Eq : real (w / h)%num = rnd (real w / real h)) by (apply div_real; auto).
  assert (Bs : IZR (4 * (z + 1) - 1) / 4 <= rnd (real (w / h)%num + real n1) <= IZR (4 * (z + 1) + 1) / 4).
  { apply rnd_between; try (apply quarter_format; lia). rewrite Eq, R1. lra. }
  assert (Fs : finite (w / h + n1)%num) by (apply add_finite; auto; apply Sm; lra).
  rewrite <- add_real in Bs by auto.
  destruct (truncates _ Fs) as (k & Ek & B1).
  { assert (0 <= IZR (4 * z - 1)) by (apply IZR_le; lia). assert (IZR (4 * (z + 1) + 1) <= IZR (2 ^ 64)) by (apply IZR_le; lia). split; lra. }
  rewrite Ek. rewrite INR_IZR_INZ in B1.
  assert (Up : IZR (Z.of_nat k) < IZR (z + 2)) by (rewrite !plus_IZR, ?mult_IZR, ?plus_IZR in *; lra).
  assert (Lo : IZR z < IZR (Z.of_nat k + 1)) by (rewrite ?minus_IZR, !plus_IZR, ?mult_IZR, ?plus_IZR in *; lra).
  apply lt_IZR in Up, Lo. assert (k = n \/ k = S n) as [->| ->] by lia; auto.
Qed.
