(** The exact number types convert naturals exactly. *)
From Coq Require Import ZArith QArith Qcanon Reals Lia.
From Verif Require Import Num NumInst UtilsSpec.

Lemma NumQc_nat : NatLaws NumQc.
Proof.
  split; [reflexivity|]. intros n. apply Qc_is_canon.
  change (Qred (inject_Z (Z.of_nat (S n))) == Qred (Qred (inject_Z (Z.of_nat n)) + Qred (inject_Z 1)))%Q.
  rewrite !Qred_correct. rewrite <- inject_Z_plus. rewrite Nat2Z.inj_succ. reflexivity.
Qed.
Lemma NumQc_char0 n : @nofnat NumQc (S n) <> n0.
Proof.
  intros H. apply (f_equal this) in H.
  change (Qred (inject_Z (Z.of_nat (S n))) = Qred (inject_Z 0)) in H.
  assert (E : (inject_Z (Z.of_nat (S n)) == inject_Z 0)%Q).
  { rewrite <- (Qred_correct (inject_Z (Z.of_nat (S n)))), H. apply Qred_correct. }
  unfold Qeq in E. cbn -[Z.of_nat] in E. lia.
Qed.
Lemma NumR_nat : NatLaws NumR.
Proof. split; [reflexivity|]. exact S_INR. Qed.
Lemma NumR_char0 n : @nofnat NumR (S n) <> n0.
Proof. apply (not_0_INR (S n)). discriminate. Qed.
