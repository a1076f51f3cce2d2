(** The closed form of the inverse Hilbert matrix, over any field of characteristic 0. *)
From Coq Require Import List Arith Bool Lia Factorial Field_theory Ring Field.
From Verif Require Import Base Num Spec SpecProofs UtilsSpec UtilsProofs.
Import ListNotations.

Section Hilbert.
Context {N : Num} (HF : FieldLaws N) (HN : NatLaws N) (H0 : forall n, @nofnat N (S n) <> n0).
Add Field hfld : (fl_field N HF).
Local Notation nn := (@nofnat N).
Local Notation f k := (@nofnat N (fact k)).
Local Open Scope num_scope.

(** (-1)^k *)
Fixpoint sg (k : nat) : N := match k with O => n1 | S k' => - sg k' end.
Lemma sg_plus a b : sg (a + b) = sg a * sg b.
Proof. induction a as [|a IH]; cbn [plus sg]; [ring|]. rewrite IH. ring. Qed.
Lemma sg_sqr a : sg a * sg a = n1.
Proof. induction a as [|a IH]; cbn [sg]; [ring|]. transitivity (sg a * sg a); [ring|auto]. Qed.
Lemma nS k : nn (S k) = nn k + n1. Proof. apply (nl_S N HN). Qed.
Lemma n0' : nn 0 = n0. Proof. apply (nl_0 N HN). Qed.
Lemma f_S k : f (S k) = (nn k + n1) * f k.
Proof. change (fact (S k)) with (S k * fact k)%nat. rewrite (nat_mult HF HN), nS. ring. Qed.
Lemma f_0 : f 0 = n1. Proof. cbn. rewrite nS, n0'. ring. Qed.
Lemma f_nz k : f k <> n0.
Proof. apply (nat_nz H0). pose proof (lt_O_fact k). lia. Qed.
Lemma nS_nz k : nn k + n1 <> n0.
Proof. rewrite <- nS. apply H0. Qed.
Lemma diff_nz a b : (a < b)%nat -> nn b - nn a <> n0.
Proof. intros H. rewrite <- (nat_sub HF HN) by lia. apply (nat_nz H0). lia. Qed.
Lemma one_nz : n1 <> n0 :> N. Proof. apply (F_1_neq_0 (fl_field N HF)). Qed.
Lemma opp_nz (x : N) : x <> n0 -> - x <> n0.
Proof. intros H E. apply H. transitivity (- - x); [ring|]. rewrite E. ring. Qed.
Lemma sg_nz k : sg k <> n0.
Proof. induction k; cbn [sg]; [apply one_nz|]. now apply opp_nz. Qed.
Lemma nz_eq (x y : N) : y <> n0 -> x = y -> x <> n0.
Proof. congruence. Qed.
Lemma mul_nz (x y : N) : x <> n0 -> y <> n0 -> x * y <> n0.
Proof. intros Hx Hy E. apply Hy. transitivity (n1 / x * (x * y)); [field; auto|]. rewrite E. ring. Qed.
Lemma mul_cancel (c x y : N) : c <> n0 -> c * x = c * y -> x = y.
Proof. intros H E. transitivity (n1 / c * (c * x)); [field; auto|]. rewrite E. field; auto. Qed.

(** R n x = prod_{m<n} (x-m)/(x+m+1) *)
Fixpoint R (n : nat) (x : N) : N :=
  match n with O => n1 | S k => R k x * ((x - nn k) / (x + nn k + n1)) end.
(** a n k = (n+k)! / (k!^2 (n-1-k)!) *)
Definition aa (n k : nat) : N := f (n + k) / (f k * f k * f (n - 1 - k)).
Definition rr (n k : nat) : N := sg (n + k) * aa n k.

Lemma rr_S n k : (k < n)%nat -> rr (S n) k * (nn n - nn k) = - (rr n k * (nn n + nn k + n1)).
Proof.
  intros H. unfold rr, aa. cbn [plus sg]. rewrite f_S, (nat_plus HF HN).
  replace (S n - 1 - k)%nat with (S (n - 1 - k)) by lia. rewrite f_S.
  assert (E : nn (n - 1 - k) + n1 = nn n - nn k).
  { assert (E : nn n = nn (S (n - 1 - k) + k)) by (f_equal; lia). rewrite E, (nat_plus HF HN), nS. ring. }
  rewrite E. pose proof (f_nz k). pose proof (f_nz (n - 1 - k)).
  assert (Hd : nn n - nn k <> n0) by (apply diff_nz; auto).
  field. repeat split; auto.
Qed.

Lemma sumterm_split n (r : nat -> N) x :
  (forall k, (k < n)%nat -> x + nn k + n1 <> n0) -> x + nn n + n1 <> n0 ->
  bigsum n (fun k => r k / ((x + nn k + n1) * (x + nn n + n1))) =
  bigsum n (fun k => r k / (nn n - nn k) / (x + nn k + n1)) - bigsum n (fun k => r k / (nn n - nn k)) / (x + nn n + n1).
Proof.
  intros Hx Hn.
  transitivity (bigsum n (fun k => r k / (nn n - nn k) / (x + nn k + n1)) -
                bigsum n (fun k => r k / (nn n - nn k) * (n1 / (x + nn n + n1)))).
  - rewrite <- (bigsum_minus HF). apply bigsum_ext. intros k Hk. pose proof (Hx k Hk). pose proof (diff_nz k n Hk).
    field. auto.
  - rewrite (bigsum_mul_r HF). field. auto.
Qed.


(** R n (-(m+1)) = (m+n)! (m-n)! / m!^2 for n <= m *)
Lemma R_neg m n : (n <= m)%nat -> R n (- (nn m + n1)) * (f m * f m) = f (m + n) * f (m - n).
Proof.
  induction n as [|n IH]; intros H; cbn [R].
  - rewrite Nat.add_0_r, Nat.sub_0_r. ring.
  - assert (Hd : nn m - nn n <> n0) by (apply diff_nz; lia).
    assert (E1 : - (nn m + n1) + nn n + n1 = - (nn m - nn n)) by ring.
    rewrite E1. transitivity (R n (- (nn m + n1)) * (f m * f m) * ((nn m + n1 + nn n) / (nn m - nn n))).
    { field. split; auto. now apply opp_nz. }
    rewrite IH by lia. replace (m - n)%nat with (S (m - S n)) by lia. rewrite f_S.
    rewrite Nat.add_succ_r, f_S, (nat_plus HF HN).
    assert (E : nn (m - S n) + n1 = nn m - nn n) by (rewrite (nat_sub HF HN) by lia; rewrite nS; ring).
    rewrite E. field. auto.
Qed.

Lemma neg_nz k n : (k < n)%nat -> - (nn n + n1) + nn k + n1 <> n0.
Proof.
  intros Hk E. apply (diff_nz k n Hk). transitivity (- (- (nn n + n1) + nn k + n1)); [ring|]. rewrite E. ring.
Qed.

Lemma partial_fractions n : forall x, (forall k, (k < n)%nat -> x + nn k + n1 <> n0) ->
  R n x = n1 + bigsum n (fun k => rr n k / (x + nn k + n1)).
Proof.
  induction n as [|n IH]; intros x Hx; cbn [R bigsum]; [ring|].
  rewrite IH by (intros; apply Hx; lia).
  pose proof (Hx n ltac:(lia)) as Hn.
  assert (Hk : forall k, (k < n)%nat -> x + nn k + n1 <> n0) by (intros; apply Hx; lia).
  (* last coefficient *)
  assert (Hlast : rr (S n) n = - (nn n + nn n + n1) * (n1 - bigsum n (fun k => rr n k / (nn n - nn k)))).
  { assert (E : n1 - bigsum n (fun k => rr n k / (nn n - nn k)) = R n (- (nn n + n1))).
    { rewrite IH.
      - replace (bigsum n (fun k => rr n k / (- (nn n + n1) + nn k + n1)))
          with (bigsum n (fun k => (- n1) * (rr n k / (nn n - nn k)))).
        + rewrite (bigsum_mul_l HF). ring.
        + apply bigsum_ext. intros k Hk'. pose proof (diff_nz k n Hk') as Hd. pose proof (neg_nz k n Hk').
          replace (- (nn n + n1) + nn k + n1) with (- (nn n - nn k)) by ring. field. split; auto. now apply opp_nz.
      - intros k Hk'. now apply neg_nz. }
    rewrite E. pose proof (R_neg n n (le_n _)) as HR. rewrite Nat.sub_diag, f_0 in HR.
    apply (mul_cancel (f n * f n)); [apply mul_nz; apply f_nz|].
    transitivity (- (nn n + nn n + n1) * (R n (- (nn n + n1)) * (f n * f n))); [|ring]. rewrite HR.
    unfold rr, aa. replace (S n - 1 - n)%nat with 0%nat by lia. rewrite f_0.
    cbn [plus sg]. rewrite f_S, (nat_plus HF HN), sg_plus.
    pose proof (sg_sqr n) as Hs. pose proof (f_nz n).
    transitivity (- (sg n * sg n) * ((nn n + nn n + n1) * f (n + n))); [field; auto|]. rewrite Hs. ring. }
  rewrite Hlast.
  set (S1 := bigsum n (fun k => rr n k / (x + nn k + n1))).
  set (S2 := bigsum n (fun k => rr n k / (nn n - nn k))).
  set (S3 := bigsum n (fun k => rr n k / (nn n - nn k) / (x + nn k + n1))).
  assert (E3 : bigsum n (fun k => rr (S n) k / (x + nn k + n1)) = S1 - (nn n + nn n + n1) * S3).
  { unfold S1, S3. rewrite <- (bigsum_mul_l HF), <- (bigsum_minus HF). apply bigsum_ext. intros k Hk'.
    pose proof (Hk k Hk') as Hx'. pose proof (diff_nz k n Hk') as Hd. pose proof (rr_S n k Hk') as Hr.
    assert (E : rr (S n) k = - (rr n k * (nn n + nn k + n1)) / (nn n - nn k)) by (rewrite <- Hr; field; auto).
    rewrite E. field. auto. }
  rewrite E3.
  assert (E4 : S1 * (n1 / (x + nn n + n1)) = S3 - S2 * (n1 / (x + nn n + n1))).
  { unfold S1. rewrite <- (bigsum_mul_r HF). pose proof (sumterm_split n (rr n) x Hk Hn) as E. fold S2 S3 in E.
    transitivity (S3 - S2 / (x + nn n + n1)); [|field; auto]. rewrite <- E. apply bigsum_ext.
    intros k Hk'. pose proof (Hk k Hk'). field. auto. }
  assert (E5 : S3 = S1 * (n1 / (x + nn n + n1)) + S2 * (n1 / (x + nn n + n1))) by (rewrite E4; ring).
  rewrite E5. field. auto.
Qed.

Lemma R_root n i : (i < n)%nat -> R n (nn i) = n0.
Proof.
  induction n as [|n IH]; intros H; [lia|]. cbn [R]. destruct (Nat.eq_dec i n) as [->|Hne].
  - field. rewrite <- (nat_plus HF HN). apply nS_nz.
  - rewrite IH by lia. rewrite (Fdiv_def (fl_field N HF)). ring.
Qed.

Lemma sum_root n i : (i < n)%nat -> bigsum n (fun k => rr n k / (nn i + nn k + n1)) = - n1.
Proof.
  intros H. pose proof (partial_fractions n (nn i)) as E. rewrite R_root in E by auto.
  assert (HH : n1 + bigsum n (fun k => rr n k / (nn i + nn k + n1)) = n0).
  { symmetry. apply E. intros k _. rewrite <- (nat_plus HF HN). apply nS_nz. }
  transitivity (n1 + bigsum n (fun k => rr n k / (nn i + nn k + n1)) - n1); [ring|]. rewrite HH. ring.
Qed.

(** The closed form: entry (i,j) is (-1)^(i+j) a_i a_j / (i+j+1). *)
Definition ih (n i j : nat) : N := sg (i + j) * aa n i * aa n j / (nn (i + j) + n1).
Definition hh (i j : nat) : N := n1 / (nn (i + j) + n1).

Lemma ih_sym n i j : ih n i j = ih n j i.
Proof. unfold ih. rewrite (Nat.add_comm j i). pose proof (nS_nz (i + j)). field. auto. Qed.
Lemma ih_rr n i j : ih n i j = rr n i * (rr n j / (nn i + nn j + n1)).
Proof.
  unfold ih, rr. rewrite !sg_plus, (nat_plus HF HN). pose proof (sg_sqr n) as Hs.
  assert (H : nn i + nn j + n1 <> n0) by (rewrite <- (nat_plus HF HN); apply nS_nz).
  transitivity ((sg n * sg n) * (sg i * sg j * aa n i * aa n j / (nn i + nn j + n1))); [rewrite Hs; field; auto|field; auto].
Qed.

(** off the diagonal *)
Lemma ih_hh_off n i j : (i < n)%nat -> (j < n)%nat -> i <> j -> bigsum n (fun k => ih n i k * hh k j) = n0.
Proof.
  intros Hi Hj Hne.
  assert (Hd : nn j - nn i <> n0).
  { destruct (Nat.lt_gt_cases i j) as [Hlt _]. destruct (Hlt Hne) as [H|H].
    - now apply diff_nz.
    - intros E. apply (diff_nz j i H). transitivity (- (nn j - nn i)); [ring|]. rewrite E. ring. }
  transitivity (rr n i / (nn j - nn i) *
    (bigsum n (fun k => rr n k / (nn i + nn k + n1)) - bigsum n (fun k => rr n k / (nn j + nn k + n1)))).
  2:{ rewrite !sum_root by auto. field. auto. }
  rewrite <- (bigsum_minus HF), <- (bigsum_mul_l HF). apply bigsum_ext. intros k Hk. rewrite ih_rr. unfold hh.
  rewrite (nat_plus HF HN).
  assert (H1 : nn i + nn k + n1 <> n0) by (rewrite <- (nat_plus HF HN); apply nS_nz).
  assert (H2 : nn j + nn k + n1 <> n0) by (rewrite <- (nat_plus HF HN); apply nS_nz).
  assert (H3 : nn k + nn j + n1 <> n0) by (rewrite <- (nat_plus HF HN); apply nS_nz).
  field. auto.
Qed.
Lemma hh_sym i j : hh i j = hh j i.
Proof. unfold hh. now rewrite Nat.add_comm. Qed.

Lemma ih_row_sum n i : (i < n)%nat -> bigsum n (fun k => ih n i k) = - rr n i.
Proof.
  intros Hi. transitivity (rr n i * bigsum n (fun k => rr n k / (nn i + nn k + n1))).
  - rewrite <- (bigsum_mul_l HF). apply bigsum_ext. intros; apply ih_rr.
  - rewrite sum_root by auto. ring.
Qed.

Theorem ih_left n i j : (i < n)%nat -> (j < n)%nat ->
  bigsum n (fun k => ih n i k * hh k j) = if Nat.eqb i j then n1 else n0.
Proof.
  intros Hi Hj. destruct (Nat.eqb_spec i j) as [->|Hne]; [|now apply ih_hh_off].
  (* total of row j of H B, computed in two ways *)
  assert (E1 : bigsum n (fun i => bigsum n (fun k => ih n i k * hh k j)) = bigsum n (fun k => ih n j k * hh k j)).
  { apply (bigsum_single HF n j (fun i => bigsum n (fun k => ih n i k * hh k j))); auto.
    intros i' Hi' Hne. now apply ih_hh_off. }
  rewrite <- E1, (bigsum_swap HF).
  transitivity (bigsum n (fun k => (- n1) * (rr n k / (nn j + nn k + n1)))).
  - apply bigsum_ext. intros k Hk. rewrite (bigsum_mul_r HF).
    replace (bigsum n (fun i' => ih n i' k)) with (bigsum n (fun i' => ih n k i')) by (apply bigsum_ext; intros; apply ih_sym).
    rewrite ih_row_sum by auto. unfold hh. rewrite (nat_plus HF HN).
    assert (H1 : nn k + nn j + n1 <> n0) by (rewrite <- (nat_plus HF HN); apply nS_nz).
    assert (H2 : nn j + nn k + n1 <> n0) by (rewrite <- (nat_plus HF HN); apply nS_nz).
    field. auto.
  - rewrite (bigsum_mul_l HF), sum_root by auto. ring.
Qed.
Theorem ih_right n i j : (i < n)%nat -> (j < n)%nat ->
  bigsum n (fun k => hh i k * ih n k j) = if Nat.eqb i j then n1 else n0.
Proof.
  intros Hi Hj. rewrite Nat.eqb_sym, <- (ih_left n j i Hj Hi). apply bigsum_ext. intros k Hk.
  rewrite (ih_sym n k j), (hh_sym i k). ring.
Qed.

(** The integer formula. *)
Definition ihz (n i j : nat) : nat :=
  (i + j + 1) * choose (n + i) (n - j - 1) * choose (n + j) (n - i - 1) * (choose (i + j) i * choose (i + j) i).
Lemma choose_nn n k : (k <= n)%nat -> nn (choose n k) = f n / (f k * f (n - k)).
Proof.
  intros H. pose proof (choose_spec n k H) as E. pose proof (f_nz k). pose proof (f_nz (n - k)).
  rewrite <- E, !(nat_mult HF HN). field. auto.
Qed.
Lemma ihz_ih n i j : (i < n)%nat -> (j < n)%nat -> nn (ihz n i j) * sg (i + j) = ih n i j.
Proof.
  intros Hi Hj. unfold ihz, ih, aa. rewrite !(nat_mult HF HN), !choose_nn by lia.
  replace (n + i - (n - j - 1))%nat with (S (i + j)) by lia.
  replace (n + j - (n - i - 1))%nat with (S (i + j)) by lia.
  replace (i + j - i)%nat with j by lia.
  replace (n - 1 - i)%nat with (n - i - 1)%nat by lia. replace (n - 1 - j)%nat with (n - j - 1)%nat by lia.
  rewrite !f_S. replace (i + j + 1)%nat with (S (i + j)) by lia. rewrite nS.
  pose proof (nS_nz (i + j)). pose proof (f_nz i). pose proof (f_nz j). pose proof (f_nz (i + j)).
  pose proof (f_nz (n - i - 1)). pose proof (f_nz (n - j - 1)).
  field. repeat split; auto.
Qed.
End Hilbert.
