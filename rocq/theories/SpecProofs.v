(** Facts about Spec.v. *)
From Coq Require Import List Arith Bool Lia Field_theory Ring Field.
From Coq.Floats Require Import SpecFloat.
From Verif Require Import Base BaseProofs Num NumInst Spec.
Import ListNotations.

Lemma zero_laws_refl N : ZeroLaws N -> zero_refl N.
Proof. intros H. exact (zl_refl H). Qed.

Lemma field_zero_laws N : FieldLaws N -> ZeroLaws N.
Proof.
  intros H. destruct (fl_field N H) as [R _ _ _].
  assert (Hadd : forall x : N, nadd x n0 = x).
  { intros x. rewrite (Radd_comm R). apply (Radd_0_l R). }
  assert (Hopp : nopp (@n0 N) = n0).
  { rewrite <- (Radd_0_l R (nopp n0)). apply (Ropp_def R). }
  assert (Hsub : forall x : N, nsub x n0 = x).
  { intros x. rewrite (Rsub_def R), Hopp. apply Hadd. }
  constructor; intros; rewrite ?Hadd, ?Hsub; auto; try (apply (fl_eqb N H); reflexivity).
  apply Bool.eq_iff_eq_true. rewrite !(fl_eqb N H). split; congruence.
Qed.

Lemma NumF64_zero_laws : ZeroLaws NumF64.
Proof.
  constructor; try reflexivity.
  - intros [s|s| |s m e] H; try reflexivity. discriminate H.
  - intros [s|s| |s m e] H; try reflexivity. discriminate H.
  - intros [s|s| |s m e]; try reflexivity; destruct s; reflexivity.
Qed.

Section FieldSums.
Context {N : Num}.
Hypothesis HF : FieldLaws N.
Add Field nfield : (fl_field N HF).
Open Scope num_scope.

Lemma is0_iff (x : N) : is0 x = true <-> x = n0.
Proof. apply (fl_eqb N HF). Qed.
Lemma is0_false (x : N) : is0 x = false <-> x <> n0.
Proof. rewrite <- is0_iff. destruct (is0 x); split; congruence. Qed.
Lemma norm0_id (x : N) : norm0 x = x.
Proof. unfold norm0. destruct (is0 x) eqn:E; auto. apply is0_iff in E. auto. Qed.

Lemma bigsum_ext n (f g : nat -> N) : (forall i, (i < n)%nat -> f i = g i) -> bigsum n f = bigsum n g.
Proof. induction n as [|n IH]; intros H; simpl; auto. rewrite IH, H; auto. Qed.
Lemma bigsum_0 n (f : nat -> N) : (forall i, (i < n)%nat -> f i = n0) -> bigsum n f = n0.
Proof. induction n as [|n IH]; intros H; simpl; auto. rewrite IH, H; auto. ring. Qed.
Lemma bigsum_plus n (f g : nat -> N) : bigsum n (fun i => f i + g i) = bigsum n f + bigsum n g.
Proof. induction n as [|n IH]; simpl; [ring|]. rewrite IH. ring. Qed.
Lemma bigsum_minus n (f g : nat -> N) : bigsum n (fun i => f i - g i) = bigsum n f - bigsum n g.
Proof. induction n as [|n IH]; simpl; [ring|]. rewrite IH. ring. Qed.
Lemma bigsum_mul_l n c (f : nat -> N) : bigsum n (fun i => c * f i) = c * bigsum n f.
Proof. induction n as [|n IH]; simpl; [ring|]. rewrite IH. ring. Qed.
Lemma bigsum_mul_r n c (f : nat -> N) : bigsum n (fun i => f i * c) = bigsum n f * c.
Proof. induction n as [|n IH]; simpl; [ring|]. rewrite IH. ring. Qed.
Lemma bigsum_swap n m (f : nat -> nat -> N) :
  bigsum n (fun i => bigsum m (fun j => f i j)) = bigsum m (fun j => bigsum n (fun i => f i j)).
Proof.
  induction n as [|n IH]; simpl.
  - symmetry. apply bigsum_0. auto.
  - rewrite IH, <- bigsum_plus. reflexivity.
Qed.
(** Only one non-zero term. *)
Lemma bigsum_single n k (f : nat -> N) : (k < n)%nat ->
  (forall i, (i < n)%nat -> i <> k -> f i = n0) -> bigsum n f = f k.
Proof.
  induction n as [|n IH]; intros Hk H; [lia|]. simpl.
  destruct (Nat.eq_dec k n) as [->|Hne].
  - rewrite bigsum_0; [ring|]. intros i Hi. apply H; lia.
  - rewrite IH, (H n); try lia; [ring|]. intros; apply H; lia.
Qed.
Lemma bigsum_split n k (f : nat -> N) : (k <= n)%nat ->
  bigsum n f = bigsum k f + bigsum (n - k) (fun i => f (k + i)%nat).
Proof.
  intros H. replace n with (k + (n - k))%nat at 1 by lia. generalize (n - k)%nat as d. clear H n.
  induction d as [|d IH].
  - rewrite Nat.add_0_r. simpl. ring.
  - rewrite <- plus_n_Sm. simpl. rewrite IH. ring.
Qed.
End FieldSums.
