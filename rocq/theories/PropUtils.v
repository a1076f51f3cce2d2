(** Properties of the integer and real helper functions (Utils.h): C61. *)
From Coq Require Import List Arith Bool ZArith Lia Factorial.
From Verif Require Import Base Num NumInst UtilsModel UtilsSpec UtilsProofs UtilsInst.
Import ListNotations.

(** sign_pow(k) = (-1)^k for every integer k, negative ones included. *)
Theorem C61_sign_pow : forall k : Z,
  (Z.Even k -> sign_pow k = 1%Z) /\ (Z.Odd k -> sign_pow k = (-1)%Z).
Proof.
  intros k. rewrite sp_pow. split; intros H.
  - apply Z.even_spec in H. now rewrite H.
  - apply Z.odd_spec in H. rewrite <- Z.negb_odd, H. reflexivity.
Qed.

(** factorial(k) is k! whenever k! is representable, and in general k! modulo 2^64. *)
Theorem C61_factorial : forall k,
  u_factorial k = (Z.of_nat (fact k) mod 2 ^ 64)%Z /\
  ((Z.of_nat (fact k) < 2 ^ 64)%Z -> u_factorial k = Z.of_nat (fact k)).
Proof.
  intros k. split; [exact (fact_ok k)|]. intros H. rewrite fact_ok. apply Z.mod_small. split; [lia|exact H].
Qed.

(** binom(n,k) for k <= n < 2^63 terminates (two calls are enough) with n!/(k!(n-k)!), provided
    min(k,n-k) times that value is representable. *)
Theorem C61_binom_partial : forall (n k : nat) (fuel : nat),
  k <= n -> (Z.of_nat n < 2 ^ 63)%Z ->
  (Z.of_nat (Nat.min k (n - k)) * Z.of_nat (choose n k) < 2 ^ 64)%Z -> 2 <= fuel ->
  u_binom fuel (Z.of_nat n) (Z.of_nat k) = Ok (Z.of_nat (choose n k)) /\
  choose n k * (fact k * fact (n - k)) = fact n.
Proof.
  intros n k [|[|f]] Hk Hn Hb Hf; try lia. split; [exact (binom_ok f n k Hk Hn Hb)|exact (choose_spec n k Hk)].
Qed.

(** [BUG] k > n: the mathematical value is 0, the call never returns (for any amount of recursion). *)
Theorem C61_binom_out_of_range_refuted : choose 2 3 = 0 /\ forall fuel, u_binom fuel 2 3 = Hang.
Proof. split; [reflexivity|]. intros f. apply (binom_hang f). Qed.

(** [BUG] binom(67,33) = 14226520737620288370 fits in 64 bits, but an intermediate product wraps and the
    call returns something else. *)
Theorem C61_binom_intermediate_refuted :
  Z.of_nat (choose 67 33) = 14226520737620288370%Z /\ (14226520737620288370 < 2 ^ 64)%Z /\
  forall fuel, 2 <= fuel -> u_binom fuel 67 33 = Ok 23341572944240599%Z.
Proof.
  split; [exact choose_67_33|]. split; [reflexivity|]. intros [|[|f]] H; try lia. reflexivity.
Qed.

(** The real binom(x,k) is x(x-1)...(x-k+1)/k! in exact arithmetic, for every x and k ... *)
Theorem C61_real_binom : forall (N : Num), FieldLaws N -> NatLaws N -> (forall n, @nofnat N (S n) <> n0) ->
  forall (x : N) k, exists v, r_binom x k = Ok v /\ nmul v (nofnat (fact k)) = falling x k.
Proof. intros N HF HN H0 x k. exact (rbinom_ok HF HN H0 x k). Qed.
(** ... hence the binomial coefficient at natural numbers, and 0 for k > n. *)
Theorem C61_real_binom_nat : forall (N : Num), FieldLaws N -> NatLaws N -> (forall n, @nofnat N (S n) <> n0) ->
  forall n k, r_binom (@nofnat N n) k = Ok (nofnat (choose n k)).
Proof. intros N HF HN H0 n k. exact (rbinom_nat_all HF HN H0 n k). Qed.

(** Non-vacuity: a coefficient with both branches taken, and the number types. *)
Example C61_example : u_binom 2 10 7 = Ok 120%Z /\ choose 10 7 = 120 /\
  (Z.of_nat (Nat.min 7 (10 - 7)) * Z.of_nat (choose 10 7) < 2 ^ 64)%Z /\ u_factorial 20 = 2432902008176640000%Z.
Proof. repeat split; vm_compute; reflexivity. Qed.
Example C61_real_example : FieldLaws NumQc /\ NatLaws NumQc /\ (forall n, @nofnat NumQc (S n) <> n0) /\
  FieldLaws NumR /\ NatLaws NumR /\ (forall n, @nofnat NumR (S n) <> n0).
Proof.
  split; [exact NumQc_field|]. split; [exact NumQc_nat|]. split; [exact NumQc_char0|].
  split; [exact NumR_field|]. split; [exact NumR_nat|exact NumR_char0].
Qed.
