(** Proofs for Utils.h. *)
From Coq Require Import List Arith Bool ZArith Lia Factorial Field_theory Ring Field.
From Verif Require Import Base BaseProofs Num Spec SpecProofs UtilsModel UtilsSpec.
Import ListNotations.

Lemma sp_pow k : sign_pow k = if Z.even k then 1%Z else (-1)%Z.
Proof.
  unfold sign_pow.
  assert (H : (Z.rem k 2 =? 0)%Z = Z.even k).
  { apply eq_true_iff_eq. rewrite Z.eqb_eq, Z.even_spec. rewrite Z.rem_divide by lia.
    split; intros (q & Hq); exists q; lia. }
  now rewrite H.
Qed.

Lemma u64_small x : (0 <= x < M64)%Z -> u64 x = x.
Proof. apply Z.mod_small. Qed.

Lemma fact_ok k : u_factorial k = (Z.of_nat (fact k) mod M64)%Z.
Proof.
  induction k as [|k IH]; [reflexivity|].
  cbn [u_factorial]. unfold u64. rewrite IH.
  rewrite Zmult_mod_idemp_r. f_equal. change (fact (S k)) with (S k * fact k). lia.
Qed.

Lemma choose_0 n : choose n 0 = 1.
Proof. destruct n; reflexivity. Qed.
Lemma choose_big n k : n < k -> choose n k = 0.
Proof.
  revert k; induction n as [|n IH]; intros [|k] H; try lia; [reflexivity|].
  cbn [choose]. rewrite !IH by lia. reflexivity.
Qed.
Lemma choose_n n : choose n n = 1.
Proof. induction n as [|n IH]; [reflexivity|]. cbn [choose]. rewrite IH, choose_big by lia. reflexivity. Qed.
Lemma choose_absorb n k : S k * choose (S n) (S k) = S n * choose n k.
Proof.
  revert k; induction n as [|n IH]; intros k.
  - destruct k; [reflexivity|]. cbn. lia.
  - destruct k as [|k].
    + change (choose (S (S n)) 1) with (choose (S n) 0 + choose (S n) 1).
      specialize (IH 0). rewrite choose_0 in *. lia.
    + change (choose (S (S n)) (S (S k))) with (choose (S n) (S k) + choose (S n) (S (S k))).
      pose proof (IH k). pose proof (IH (S k)).
      assert (E : choose (S n) (S k) = choose n k + choose n (S k)) by reflexivity.
      nia.
Qed.
Lemma choose_fact a b : choose (a + b) a * (fact a * fact b) = fact (a + b).
Proof.
  induction a as [|a IH].
  - cbn [plus]. rewrite choose_0. cbn [fact]. lia.
  - change (S a + b) with (S (a + b)). change (fact (S a)) with (S a * fact a).
    change (fact (S (a + b))) with (S (a + b) * fact (a + b)).
    rewrite <- IH. transitivity ((S a * choose (S (a + b)) (S a)) * (fact a * fact b)); [ring|].
    rewrite choose_absorb. ring.
Qed.
Lemma choose_spec n k : k <= n -> choose n k * (fact k * fact (n - k)) = fact n.
Proof. intros H. pose proof (choose_fact k (n - k)) as E. now replace (k + (n - k)) with n in E by lia. Qed.
Lemma choose_sym n k : k <= n -> choose n (n - k) = choose n k.
Proof.
  intros H. pose proof (choose_spec n k H) as A. pose proof (choose_spec n (n - k) ltac:(lia)) as B.
  replace (n - (n - k)) with k in B by lia. rewrite (Nat.mul_comm (fact (n - k))) in B.
  pose proof (lt_O_fact k). pose proof (lt_O_fact (n - k)).
  apply Nat.mul_cancel_r with (fact k * fact (n - k)); nia.
Qed.
Lemma choose_mono1 n k : choose n k <= choose (S n) k.
Proof. destruct k; [now rewrite !choose_0|]. cbn [choose]. lia. Qed.
Lemma choose_pos n k : k <= n -> 0 < choose n k.
Proof.
  revert k; induction n as [|n IH]; intros [|k] H; try lia; cbn [choose]; try lia.
  specialize (IH k). lia.
Qed.
(** along a diagonal *)
Lemma choose_diag a i d : choose (a + i) i <= choose (a + (i + d)) (i + d).
Proof.
  induction d as [|d IH]; [rewrite Nat.add_0_r; lia|].
  rewrite !Nat.add_succ_r. cbn [choose]. lia.
Qed.

Local Open Scope Z_scope.
Lemma binom_loop_ok (n k : nat) c i (v : nat) :
  (k <= n)%nat -> (i + c = S k)%nat -> (2 <= i)%nat -> v = choose (n - k + (i - 1)) (i - 1) ->
  Z.of_nat k * Z.of_nat (choose n k) < M64 -> Z.of_nat n < M64 ->
  u_binom_loop c (Z.of_nat n) (Z.of_nat k) (Z.of_nat i) (Z.of_nat v) = Z.of_nat (choose n k).
Proof.
  intros Hk. revert i v; induction c as [|c IH]; intros i v Hc Hi Hv Hb Hn.
  - cbn. subst v. replace (i - 1)%nat with k by lia. now replace (n - k + k)%nat with n by lia.
  - cbn [u_binom_loop]. destruct i as [|i]; [lia|]. replace (S i - 1)%nat with i in Hv by lia.
    set (v' := choose (n - k + S i) (S i)).
    assert (Hab : (S i * v' = (n - k + S i) * v)%nat).
    { unfold v'. subst v. rewrite Nat.add_succ_r, choose_absorb. reflexivity. }
    assert (Hle : (v' <= choose n k)%nat).
    { unfold v'. pose proof (choose_diag (n - k) (S i) (k - S i)) as H.
      replace (S i + (k - S i))%nat with k in H by lia. now replace (n - k + k)%nat with n in H by lia. }
    assert (E1 : u64 (Z.of_nat n - Z.of_nat k) = Z.of_nat (n - k)) by (rewrite u64_small; lia).
    assert (E2 : u64 (Z.of_nat (n - k) + Z.of_nat (S i)) = Z.of_nat (n - k + S i)) by (rewrite u64_small; lia).
    rewrite E1, E2. rewrite <- Nat2Z.inj_mul, Nat.mul_comm, <- Hab.
    rewrite u64_small.
    2:{ split; [lia|]. rewrite Nat2Z.inj_mul. nia. }
    rewrite Nat2Z.inj_mul, Z.mul_comm, Z.div_mul by lia.
    replace (Z.of_nat (S i) + 1) with (Z.of_nat (S (S i))) by lia.
    apply IH; auto; try lia; unfold v'; f_equal; lia.
Qed.

Lemma binom_direct f (n k : nat) : (2 * k <= n)%nat -> Z.of_nat n < M64 ->
  Z.of_nat k * Z.of_nat (choose n k) < M64 ->
  u_binom (S f) (Z.of_nat n) (Z.of_nat k) = Ok (Z.of_nat (choose n k)).
Proof.
  intros Hk Hn Hb. cbn [u_binom]. destruct (Z.eqb_spec (Z.of_nat k) 0) as [E|E].
  { replace k with 0%nat by lia. now rewrite choose_0. }
  rewrite (u64_small (2 * Z.of_nat k)) by lia.
  destruct (Z.gtb_spec (2 * Z.of_nat k) (Z.of_nat n)); [lia|].
  f_equal. replace (Z.to_nat (Z.of_nat k - 1)) with (k - 1)%nat by lia.
  assert (E1 : u64 (Z.of_nat n - Z.of_nat k) = Z.of_nat (n - k)) by (rewrite u64_small; lia).
  rewrite E1. rewrite (u64_small (Z.of_nat (n - k) + 1)) by lia.
  replace (Z.of_nat (n - k) + 1) with (Z.of_nat (choose (n - k + 1) 1)).
  2:{ rewrite Nat.add_1_r. pose proof (choose_absorb (n - k) 0) as H0. rewrite choose_0 in H0. lia. }
  change 2 with (Z.of_nat 2). apply binom_loop_ok; auto; lia.
Qed.

Lemma binom_ok f (n k : nat) : (k <= n)%nat -> Z.of_nat n < 2 ^ 63 ->
  Z.of_nat (Nat.min k (n - k)) * Z.of_nat (choose n k) < M64 ->
  u_binom (S (S f)) (Z.of_nat n) (Z.of_nat k) = Ok (Z.of_nat (choose n k)).
Proof.
  intros Hk Hn Hb. assert (HM : M64 = 2 * 2 ^ 63) by reflexivity.
  destruct (le_lt_dec (2 * k) n) as [H|H].
  - apply binom_direct; try lia. now rewrite Nat.min_l in Hb by lia.
  - cbn [u_binom]. destruct (Z.eqb_spec (Z.of_nat k) 0) as [E|E]; [lia|].
    rewrite (u64_small (2 * Z.of_nat k)) by lia.
    destruct (Z.gtb_spec (2 * Z.of_nat k) (Z.of_nat n)); [|lia].
    assert (E1 : u64 (Z.of_nat n - Z.of_nat k) = Z.of_nat (n - k)) by (rewrite u64_small; lia).
    rewrite E1. rewrite <- (choose_sym n k Hk). fold (u_binom (S f)).
    apply binom_direct; try lia. rewrite choose_sym by lia. now rewrite Nat.min_r in Hb by lia.
Qed.

Lemma binom_hang f : u_binom f 2 3 = Hang /\ u_binom f 2 (2 ^ 64 - 1) = Hang.
Proof.
  induction f as [|f [IH1 IH2]]; [split; reflexivity|]. split.
  - transitivity (u_binom f 2 (2 ^ 64 - 1)); [reflexivity|exact IH2].
  - transitivity (u_binom f 2 3); [reflexivity|exact IH1].
Qed.

Fixpoint zfact (k : nat) : Z := match k with O => 1 | S k' => Z.of_nat k * zfact k' end.
Lemma zfact_ok k : zfact k = Z.of_nat (fact k).
Proof. induction k as [|k IH]; [reflexivity|]. cbn [zfact]. rewrite IH. change (fact (S k)) with (S k * fact k)%nat. lia. Qed.
Lemma choose_67_33 : Z.of_nat (choose 67 33) = 14226520737620288370.
Proof.
  pose proof (choose_spec 67 33 ltac:(lia)) as H.
  assert (E : Z.of_nat (choose 67 33) * (zfact 33 * zfact 34) = zfact 67).
  { rewrite !zfact_ok, <- H. change (67 - 33)%nat with 34%nat. rewrite !Nat2Z.inj_mul. reflexivity. }
  clear H. generalize dependent (choose 67 33). intros c E.
  apply Z.mul_cancel_r with (zfact 33 * zfact 34); [vm_compute; discriminate|]. rewrite E. vm_compute. reflexivity.
Qed.
Local Close Scope Z_scope.

Section Real.
Context {N : Num} (HF : FieldLaws N) (HN : NatLaws N) (H0 : forall n, @nofnat N (S n) <> n0).
Add Field nfld : (fl_field N HF).
Lemma nat_plus a b : nofnat (a + b) = (nofnat a + nofnat b : N)%num.
Proof.
  induction a as [|a IH]; cbn [plus]; [rewrite (nl_0 N HN); ring|].
  rewrite !(nl_S N HN), IH. ring.
Qed.
Lemma nat_mult a b : nofnat (a * b) = (nofnat a * nofnat b : N)%num.
Proof.
  induction a as [|a IH]; cbn [mult]; [rewrite (nl_0 N HN); ring|].
  rewrite nat_plus, (nl_S N HN), IH. ring.
Qed.
Lemma nat_sub a b : b <= a -> nofnat (a - b) = (nofnat a - nofnat b : N)%num.
Proof.
  intros H. assert (E : @nofnat N a = nofnat ((a - b) + b)) by (f_equal; lia).
  rewrite E, nat_plus. ring.
Qed.
Lemma nat_nz a : a <> 0 -> @nofnat N a <> n0.
Proof. destruct a; [congruence|]. auto. Qed.

Lemma rbinom_ok (x : N) k : exists v, r_binom x k = Ok v /\
  (v * nofnat (fact k) = falling x k)%num.
Proof.
  unfold r_binom, for_. rewrite Nat.sub_0_r. induction k as [|k (v & E & Hv)].
  - exists n1. split; [reflexivity|]. cbn. rewrite (nl_S N HN), (nl_0 N HN). ring.
  - rewrite for_n_last, E. cbn [bind plus]. eexists. split; [reflexivity|].
    cbn [falling]. rewrite <- Hv. change (fact (S k)) with (S k * fact k). rewrite nat_mult.
    replace (k + 1) with (S k) by lia. field. apply H0.
Qed.
Lemma falling_fact n k : k <= n -> (falling (nofnat n) k * nofnat (fact (n - k)) = nofnat (fact n) :> N)%num.
Proof.
  induction k as [|k IH]; intros H; cbn [falling].
  - rewrite Nat.sub_0_r. ring.
  - rewrite <- IH by lia. replace (n - k) with (S (n - S k)) by lia.
    change (fact (S (n - S k))) with (S (n - S k) * fact (n - S k)). rewrite nat_mult.
    replace (S (n - S k)) with (n - k) by lia. rewrite nat_sub by lia. ring.
Qed.
Lemma rbinom_nat n k : k <= n -> r_binom (@nofnat N n) k = Ok (nofnat (choose n k)).
Proof.
  intros H. destruct (rbinom_ok (nofnat n) k) as (v & -> & Hv). f_equal.
  pose proof (falling_fact n k H) as Hf. rewrite <- Hv, <- (choose_spec n k H), !nat_mult in Hf.
  assert (Hk : @nofnat N (fact k) <> n0) by (apply nat_nz; pose proof (lt_O_fact k); lia).
  assert (Hk' : @nofnat N (fact (n - k)) <> n0) by (apply nat_nz; pose proof (lt_O_fact (n - k)); lia).
  transitivity (v * nofnat (fact k) * nofnat (fact (n - k)) / (nofnat (fact k) * nofnat (fact (n - k))))%num.
  - field. auto.
  - rewrite Hf. field. auto.
Qed.
Lemma falling_zero n k : n < k -> falling (@nofnat N n) k = n0.
Proof.
  induction k as [|k IH]; intros H; [lia|]. cbn [falling]. destruct (Nat.eq_dec n k) as [->|E]; [ring|].
  rewrite IH by lia. ring.
Qed.
Lemma rbinom_nat_all n k : r_binom (@nofnat N n) k = Ok (nofnat (choose n k)).
Proof.
  destruct (le_lt_dec k n) as [H|H]; [now apply rbinom_nat|].
  rewrite choose_big, (nl_0 N HN) by auto. destruct (rbinom_ok (nofnat n) k) as (v & -> & Hv). f_equal.
  rewrite falling_zero in Hv by auto.
  assert (Hk : @nofnat N (fact k) <> n0) by (apply nat_nz; pose proof (lt_O_fact k); lia).
  transitivity (v * nofnat (fact k) / nofnat (fact k))%num; [field; auto|]. rewrite Hv. field. auto.
Qed.
End Real.

