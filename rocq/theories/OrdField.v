(** Elementary facts in an ordered field given by [OrdFieldLaws]. *)
From Coq Require Import List Arith Bool Lia Ring Field Field_theory.
From Verif Require Import Base Num Spec SpecProofs.
Import ListNotations.

Section OrdField.
Context {N : Num}.
Hypothesis HO : OrdFieldLaws N.
Let HF : FieldLaws N := of_field N HO.
Add Field nf_ord : (fl_field N HF).
Open Scope num_scope.
Notation le x y := (nleb x y = true).
Notation lt x y := (nltb x y = true).
Implicit Types x y z a b : N.

Lemma neq_dec x y : {x = y} + {x <> y}.
Proof.
  destruct (neqb x y) eqn:E; [left; now apply (fl_eqb N HF)|right].
  intros H. apply (fl_eqb N HF) in H. congruence.
Qed.
Lemma one_neq_zero : @n1 N <> n0.
Proof. apply (F_1_neq_0 (fl_field N HF)). Qed.

Lemma ole_refl x : le x x.
Proof. apply (of_le_refl N HO). Qed.
Lemma ole_trans x y z : le x y -> le y z -> le x z.
Proof. apply (of_le_trans N HO). Qed.
Lemma ole_antisym x y : le x y -> le y x -> x = y.
Proof. apply (of_le_antisym N HO). Qed.
Lemma olt_iff x y : lt x y <-> ~ le y x.
Proof. rewrite (of_lt N HO). destruct (nleb y x); simpl; split; congruence. Qed.
Lemma olt_iff_ne x y : lt x y <-> le x y /\ x <> y.
Proof.
  rewrite olt_iff. split.
  - intros H. split.
    + destruct (of_le_total N HO x y); tauto.
    + intros ->. apply H, ole_refl.
  - intros [H1 H2] H. apply H2, ole_antisym; auto.
Qed.
Lemma olt_le x y : lt x y -> le x y.
Proof. rewrite olt_iff_ne. tauto. Qed.
Lemma olt_ne x y : lt x y -> x <> y.
Proof. rewrite olt_iff_ne. tauto. Qed.
Lemma onlt_le x y : nltb x y = false <-> le y x.
Proof. rewrite (of_lt N HO), negb_false_iff. tauto. Qed.
Lemma onle_lt x y : nleb x y = false <-> lt y x.
Proof. rewrite (of_lt N HO), negb_true_iff. tauto. Qed.
Lemma ole_lt_trans x y z : le x y -> lt y z -> lt x z.
Proof. rewrite !olt_iff. intros H1 H2 H3. apply H2. eapply ole_trans; eauto. Qed.
Lemma olt_le_trans x y z : lt x y -> le y z -> lt x z.
Proof. rewrite !olt_iff. intros H1 H2 H3. apply H1. eapply ole_trans; eauto. Qed.
Lemma olt_trans x y z : lt x y -> lt y z -> lt x z.
Proof. intros H1 H2. eapply olt_le_trans; eauto. now apply olt_le. Qed.
Lemma olt_irrefl x : ~ lt x x.
Proof. rewrite olt_iff. intros H. apply H, ole_refl. Qed.

Lemma ole_sub x y : le x y <-> le n0 (y - x).
Proof.
  split; intros H.
  - apply (of_le_add N HO _ _ (- x)) in H. replace (x + - x) with (@n0 N) in H by ring.
    now replace (y - x) with (y + - x) by ring.
  - apply (of_le_add N HO _ _ x) in H. replace (n0 + x) with x in H by ring.
    now replace (y - x + x) with y in H by ring.
Qed.
Lemma olt_sub x y : lt x y <-> lt n0 (y - x).
Proof.
  rewrite !olt_iff_ne, ole_sub. split; intros [H1 H2]; split; auto; intros E; apply H2.
  - replace y with (y - x + x) by ring. rewrite <- E. ring.
  - rewrite E. ring.
Qed.
Lemma ole_add x y z w : le x y -> le z w -> le (x + z) (y + w).
Proof.
  intros H1 H2. apply ole_trans with (y + z).
  - now apply (of_le_add N HO).
  - replace (y + z) with (z + y) by ring. replace (y + w) with (w + y) by ring. now apply (of_le_add N HO).
Qed.
Lemma ole_0_add x y : le n0 x -> le n0 y -> le n0 (x + y).
Proof. intros H1 H2. replace (@n0 N) with (@n0 N + n0) by ring. now apply ole_add. Qed.
Lemma olt_0_add x y : lt n0 x -> le n0 y -> lt n0 (x + y).
Proof.
  intros H1 H2. eapply olt_le_trans; [exact H1|]. replace x with (x + n0) at 1 by ring.
  apply ole_add; auto. apply ole_refl.
Qed.
Lemma ole_opp x : le x n0 <-> le n0 (- x).
Proof. rewrite ole_sub. now replace (n0 - x) with (- x) by ring. Qed.
Lemma ole_0_mul x y : le n0 x -> le n0 y -> le n0 (x * y).
Proof. apply (of_le_mul N HO). Qed.
Lemma mul_0 x y : x * y = n0 -> x = n0 \/ y = n0.
Proof.
  intros H. destruct (neq_dec x n0) as [|Hx]; auto. right.
  replace y with ((n1 / x) * (x * y)) by (field; auto). rewrite H. ring.
Qed.
Lemma mul_neq_0 x y : x <> n0 -> y <> n0 -> x * y <> n0.
Proof. intros H1 H2 H. destruct (mul_0 _ _ H); auto. Qed.
Lemma olt_0_mul x y : lt n0 x -> lt n0 y -> lt n0 (x * y).
Proof.
  rewrite !olt_iff_ne. intros [H1 H2] [H3 H4]. split; [now apply ole_0_mul|].
  intros H. symmetry in H. apply mul_0 in H as [H|H]; congruence.
Qed.
Lemma ole_0_sqr x : le n0 (x * x).
Proof.
  destruct (of_le_total N HO n0 x) as [H|H].
  - now apply ole_0_mul.
  - apply ole_opp in H. replace (x * x) with ((- x) * (- x)) by ring. now apply ole_0_mul.
Qed.
Lemma olt_0_sqr x : x <> n0 -> lt n0 (x * x).
Proof. intros H. apply olt_iff_ne. split; [apply ole_0_sqr|]. intros E. symmetry in E. apply mul_0 in E. tauto. Qed.
Lemma olt_0_1 : lt (@n0 N) n1.
Proof. replace (@n1 N) with (@n1 N * n1) by ring. apply olt_0_sqr, one_neq_zero. Qed.
Lemma olt_0_inv x : lt n0 x -> lt n0 (n1 / x).
Proof.
  intros H. assert (Hx : x <> n0) by (apply not_eq_sym; now apply olt_ne).
  assert (Hi : n1 / x <> n0).
  { intros E. apply one_neq_zero. replace (@n1 N) with (x * (n1 / x)) by (field; auto). rewrite E. ring. }
  replace (n1 / x) with (x * ((n1 / x) * (n1 / x))) by (field; auto).
  apply olt_0_mul; auto. now apply olt_0_sqr.
Qed.
Lemma ole_mul_l x y z : le n0 z -> le x y -> le (z * x) (z * y).
Proof.
  intros H1 H2. apply ole_sub. replace (z * y - z * x) with (z * (y - x)) by ring.
  apply ole_0_mul; auto. now apply ole_sub in H2.
Qed.
Lemma olt_mul_l x y z : lt n0 z -> lt x y -> lt (z * x) (z * y).
Proof.
  intros H1 H2. apply olt_sub. replace (z * y - z * x) with (z * (y - x)) by ring.
  apply olt_0_mul; auto. now apply olt_sub in H2.
Qed.

Lemma oabs_nonneg x : le n0 (nabs x).
Proof.
  destruct (of_le_total N HO n0 x) as [H|H].
  - now rewrite (of_abs_pos N HO).
  - rewrite (of_abs_neg N HO) by auto. now apply ole_opp in H.
Qed.
Lemma oabs_0_iff x : nabs x = n0 <-> x = n0.
Proof.
  destruct (of_le_total N HO n0 x) as [H|H].
  - rewrite (of_abs_pos N HO) by auto. tauto.
  - rewrite (of_abs_neg N HO) by auto. split; intros E.
    + replace x with (- - x) by ring. rewrite E. ring.
    + rewrite E. ring.
Qed.
Lemma oabs_opp x : nabs (- x) = nabs x.
Proof.
  destruct (of_le_total N HO n0 x) as [H|H].
  - rewrite (of_abs_pos N HO x) by auto. rewrite (of_abs_neg N HO); [ring|].
    apply ole_opp. now replace (- - x) with x by ring.
  - rewrite (of_abs_neg N HO x) by auto. apply (of_abs_pos N HO). now apply ole_opp in H.
Qed.
Lemma oabs_le x : le x (nabs x).
Proof.
  destruct (of_le_total N HO n0 x) as [H|H].
  - rewrite (of_abs_pos N HO) by auto. apply ole_refl.
  - apply ole_trans with n0; auto. apply oabs_nonneg.
Qed.
Lemma oabs_mul x y : nabs (x * y) = nabs x * nabs y.
Proof.
  assert (Hp : forall a b : N, le n0 a -> nabs (a * b) = a * nabs b).
  { intros a b Ha. destruct (of_le_total N HO n0 b) as [H|H].
    - rewrite (of_abs_pos N HO b) by auto. apply (of_abs_pos N HO). now apply ole_0_mul.
    - rewrite (of_abs_neg N HO b) by auto. rewrite (of_abs_neg N HO); [ring|].
      apply ole_opp. replace (- (a * b)) with (a * - b) by ring. apply ole_0_mul; auto. now apply ole_opp in H. }
  destruct (of_le_total N HO n0 x) as [H|H].
  - rewrite Hp by auto. now rewrite (of_abs_pos N HO x).
  - rewrite <- (oabs_opp (x * y)). replace (- (x * y)) with ((- x) * y) by ring.
    rewrite Hp by now apply ole_opp in H. now rewrite (of_abs_neg N HO x).
Qed.
Lemma oabs_inv x : x <> n0 -> nabs (n1 / x) = n1 / nabs x.
Proof.
  intros H. assert (Ha : nabs x <> n0) by (rewrite oabs_0_iff; auto).
  assert (E : nabs x * nabs (n1 / x) = n1).
  { rewrite <- oabs_mul. replace (x * (n1 / x)) with (@n1 N) by (field; auto).
    apply (of_abs_pos N HO). apply olt_le, olt_0_1. }
  replace (nabs (n1 / x)) with ((n1 / nabs x) * (nabs x * nabs (n1 / x))) by (field; auto).
  rewrite E. field. auto.
Qed.
(** |a| <= |b|, b <> 0  ->  |a / b| <= 1 *)
Lemma oabs_div_le1 a b : b <> n0 -> le (nabs a) (nabs b) -> le (nabs (a / b)) n1.
Proof.
  intros Hb H. replace (a / b) with ((n1 / b) * a) by (field; auto). rewrite oabs_mul, oabs_inv by auto.
  assert (Ha : nabs b <> n0) by (rewrite oabs_0_iff; auto).
  replace (@n1 N) with ((n1 / nabs b) * nabs b) at 2 by (field; auto).
  apply ole_mul_l; auto. apply olt_le, olt_0_inv. apply olt_iff_ne. split; [apply oabs_nonneg|auto].
Qed.

(** Sums *)
Lemma bigsum_nonneg n (f : nat -> N) : (forall i, (i < n)%nat -> le n0 (f i)) -> le n0 (bigsum n f).
Proof. induction n as [|n IH]; intros H; simpl; [apply ole_refl|]. apply ole_0_add; auto. Qed.
Lemma bigsum_pos_term n (f : nat -> N) k : (k < n)%nat -> (forall i, (i < n)%nat -> le n0 (f i)) ->
  lt n0 (f k) -> lt n0 (bigsum n f).
Proof.
  induction n as [|n IH]; intros Hk H Hp; [lia|]. simpl.
  destruct (Nat.eq_dec k n) as [->|Hn].
  - replace (bigsum n f + f n) with (f n + bigsum n f) by ring. apply olt_0_add; auto. apply bigsum_nonneg; auto.
  - apply olt_0_add; auto. apply IH; auto. lia.
Qed.
Lemma bigsum_nonneg_0 n (f : nat -> N) : (forall i, (i < n)%nat -> le n0 (f i)) -> bigsum n f = n0 ->
  forall k, (k < n)%nat -> f k = n0.
Proof.
  intros H E k Hk. destruct (neq_dec (f k) n0) as [|Hn]; auto. exfalso.
  apply (olt_irrefl n0). rewrite <- E at 2. apply bigsum_pos_term with k; auto.
  apply olt_iff_ne. split; auto.
Qed.
(** A square root of a positive number is positive, and unique. *)
Lemma nonneg_sqr_inj x y : le n0 x -> le n0 y -> x * x = y * y -> x = y.
Proof.
  intros H1 H2 E. assert (H : (x - y) * (x + y) = n0) by (replace ((x-y)*(x+y)) with (x*x - y*y) by ring; rewrite E; ring).
  apply mul_0 in H as [H|H].
  - replace x with (x - y + y) by ring. rewrite H. ring.
  - assert (x = n0). { apply ole_antisym; auto. apply ole_sub. replace (n0 - x) with (y - (x + y)) by ring.
      rewrite H. now replace (y - n0) with y by ring. }
    subst x. replace y with (n0 + y) by ring. now rewrite H.
Qed.
End OrdField.
