(** LU decomposition on doubles succeeds, and small systems are solved without overflow, if no matrix within the rounding errors is singular. *)
From Coq Require Import ZArith Reals List Arith Bool SpecFloat Lia Lra Permutation.
From Flocq Require Import Core Relative.
From Verif Require Import Base BaseProofs Num NumInst OrdField Spec SpecProofs VectorModel VectorProofs UtilsSpec UtilsInst
  SparseModel SparseSpec SparseFacts SparseFacts2 SparsePropProofs DenseModel DenseSpec DenseProofs DensePropProofs MatI MatIProofs MatOps MatOpsProofs OrderProofs
  ConstructProofs DetSpec DetProofs LUModel LUProofs DetMult LUNear LUSolve LUCond LinAlg FloatSpec FloatLUSpec F64Flocq FloatProofs FloatResult FloatSolve FloatLU FloatLUSolve
  FloatGrowth FloatDetSpec FloatDet FloatInv FloatLUSafeSpec.
Import ListNotations.
Local Open Scope nat_scope.
Open Scope res_scope.
Local Open Scope R_scope.

Local Ltac rring := match goal with |- @eq _ ?x ?y => change (@eq R x y) end; ring.
Lemma margin_pos n e : 0 <= lu_error n e /\ 0 < powerRZ 2 (-52).
Proof.
  split; [|apply powerRZ_lt; lra]. unfold lu_error, row_bound. pose proof (pow_ge_1 (n + 1)). pose proof eta64_pos. pose proof (pos_INR n). pose proof (pos_INR (n + 1)).
  assert (0 < powerRZ 2 (e + Z.of_nat n)) by (apply powerRZ_lt; lra). rewrite Rabs_pos_eq by lra.
  apply Rplus_le_le_0_compat; [apply Rmult_le_pos; [lra|apply Rmult_le_pos; lra]|repeat apply Rmult_le_pos; lra].
Qed.
Lemma pivot_b : powerRZ 2 (-52) = bpow radix2 (-52).
Proof. rewrite bpow_powerRZ. reflexivity. Qed.

Section Pivots.
Variables (n : nat) (e : Z) (a ld : nat -> nat -> NumF64).
Hypothesis Hen : (e + Z.of_nat n <= 1022)%Z.
Hypothesis NS : safely_nonsingular n (lu_margin n e) a.

Lemma not_stuck k l u rt cnt : ~ stuck_float n a ld e k l u rt cnt.
Proof.
  intros H. destruct (stuck_singular n e a ld Hen k l u rt cnt H) as (E & c & Hc & HE & D). apply (NS E); [|exact D].
  intros i j Hi Hj. eapply Rle_trans; [apply HE; auto|]. unfold lu_margin. pose proof (margin_pos n e). destruct (j =? c)%nat; lra.
Qed.

(** A pivot below the threshold could be removed by a small change of its column. *)
Lemma pivots_away l u rt cnt c : (0 < n)%nat -> finv n a ld (n - 1) l u rt cnt -> grow n e (n - 1) l u -> (c < n)%nat -> powerRZ 2 (-52) < Rabs (real (u c c)).
Proof.
  intros Hn Hinv Hg Hc. destruct (Rlt_le_dec (powerRZ 2 (-52)) (Rabs (real (u c c)))) as [|Small]; [assumption|exfalso].
  pose proof Hinv as (Hex & Hp & _).
  set (l' := fun i t => if (t <? i)%nat then real (l i t) else if (t =? i)%nat then 1 else 0).
  set (u' := fun t j => if (t <=? j)%nat then real (u t j) else 0).
  set (u2 := fun t j => if ((t =? c) && (j =? c))%nat then 0 else u' t j).
  assert (L1 : forall i t, (i < n)%nat -> (t < n)%nat -> Rabs (l' i t) <= 1).
  { intros i t Hi Ht. unfold l'. destruct (Nat.ltb_spec t i); [apply Hg; lia|]. destruct (t =? i)%nat; [rewrite Rabs_R1|rewrite Rabs_R0]; lra. }
  assert (Prod : forall i j, (i < n)%nat -> (j < n)%nat -> part (n - 1) l u i j = prod2 (N := NumR) n l' u' i j).
  { intros i j Hi Hj. unfold part, prod2. rewrite rsum_bigsum.
    destruct (Nat.leb_spec i j) as [L|L]; cbn [orb].
    + symmetry. rewrite (bigsum_trunc RF n (S i)); [|lia|].
      * cbn [bigsum nadd NumR]. replace (min (S j) (min (n - 1) i)) with i by lia. f_equal.
        -- apply (@bigsum_ext NumR). intros t Hti. unfold l', u'. cbn [nmul NumR]. bcase; auto; lia.
        -- unfold l', u'. bcase; try lia. cbn [nmul NumR]. rring.
      * intros t Hti. unfold l'. bcase; try lia. apply Rmult_0_l.
    + replace (n - 1 <=? j)%nat with false by (symmetry; apply Nat.leb_gt; lia). rewrite Rplus_0_r. replace (min (S j) (min (n - 1) i)) with (S j) by lia.
      symmetry. rewrite (bigsum_trunc RF n (S j)); [|lia|].
      * apply (@bigsum_ext NumR). intros t Hti. unfold l', u'. cbn [nmul NumR]. bcase; auto; lia.
      * intros t Hti. unfold u'. bcase; try lia. apply Rmult_0_r. }
  assert (Diff : forall i j, (i < n)%nat -> (j < n)%nat -> prod2 (N := NumR) n l' u2 i j = prod2 (N := NumR) n l' u' i j - (if (j =? c)%nat then l' i c * u' c c else 0)).
  { intros i j Hi Hj. unfold prod2. rewrite <- !rsum_bigsum.
    change (rsum n (fun k => l' i k * u2 k j) = rsum n (fun k => l' i k * u' k j) - (if (j =? c)%nat then l' i c * u' c c else 0)).
    assert (X : rsum n (fun k => l' i k * u' k j) - rsum n (fun k => l' i k * u2 k j) = if (j =? c)%nat then l' i c * u' c c else 0).
    { rewrite <- rsum_minus. rewrite rsum_bigsum. rewrite (bigsum_single RF n c); auto.
      - unfold u2. rewrite Nat.eqb_refl. cbn [andb]. destruct (Nat.eqb_spec j c) as [->|]; rring.
      - intros t Ht Hne. unfold u2. destruct (Nat.eqb_spec t c); [contradiction|]. cbn [andb]. apply Rminus_diag_eq. reflexivity. }
    lra. }
  destruct (scatter n rt (fun i j => prod2 (N := NumR) n l' u2 i j - real (a (nth i rt 0%nat) j)) Hp) as (E & HE).
  apply (NS E).
  - intros i j Hi Hj. destruct (perm_surj rt n i Hp Hi) as (i' & Hi' & <-). rewrite HE by auto. rewrite Diff, <- Prod by auto.
    pose proof (part_error n e a ld Hen (n - 1) l u rt cnt i' j ltac:(lia) Hinv Hg Hi' Hj) as B. pose proof (margin_pos n e). unfold lu_margin.
    destruct (j =? c)%nat; [|rewrite Rminus_0_r; lra].
    match goal with |- Rabs (?p - ?q - ?x) <= _ => replace (p - q - x) with ((p - x) - q) by ring end.
    eapply Rle_trans; [apply Rabs_triang|]. rewrite Rabs_Ropp, Rabs_mult. apply Rplus_le_compat; [exact B|].
    unfold u'. rewrite Nat.leb_refl. rewrite <- (Rmult_1_l (powerRZ 2 (-52))). apply Rmult_le_compat; try apply Rabs_pos; auto.
  - pose proof (det_perm_rows RF n (perturbed a E) rt cnt Hex) as D.
    assert (D2 : det (N := NumR) n (fun i j => perturbed a E (nth i rt 0%nat) j) = 0).
    { transitivity (det (N := NumR) n (prod2 (N := NumR) n l' u2)).
      - apply det_ext. intros i j Hi Hj. unfold perturbed. rewrite HE by auto. rring.
      - rewrite (det_mult RF). rewrite (det_upper (N := NumR) RF n u2).
        + assert (B0 : bigprod (N := NumR) n (fun i => u2 i i) = 0).
          { clear - Hc. induction n as [|m IH]; [lia|]. cbn [bigprod]. destruct (Nat.eq_dec c m) as [->|Hne].
            - unfold u2. rewrite Nat.eqb_refl. apply Rmult_0_r.
            - rewrite IH by lia. apply Rmult_0_l. }
          rewrite B0. apply Rmult_0_r.
        + intros i j Hi Hj. unfold u2, u'. bcase; try lia; reflexivity. }
    rewrite D in D2. apply Rmult_integral in D2. destruct D2 as [Sz|]; [|assumption]. exfalso.
    pose proof (sgn_sqr RF cnt) as Sq. cbn [nmul n1 NumR] in Sq. change (sgn (N := NumR) cnt = 0) in Sz. rewrite Sz in Sq.
    change (0 * 0 = 1) in Sq. lra.
Qed.
End Pivots.

(** ** The decomposition *)
Record safe (n : nat) (e : Z) (a l u : nat -> nat -> NumF64) (rt : list nat) : Prop := {
  sf_good : good n e a l u rt;
  sf_one : forall i, (i < n)%nat -> l i i = n1;
  sf_piv : forall i, (i < n)%nat -> powerRZ 2 (-52) < Rabs (real (u i i)) }.
Definition lu_safe {I : MatI NumF64} n e a (r : I * I * I * nat) : Prop := let '(L, U, P, cnt) := r in exists l u rt,
  MatI.holds L n n l /\ MatI.holds U n n u /\ MatI.holds P n n (perm_table rt) /\ safe n e a l u rt.
Lemma make_safe n e a l u rt cnt : (0 < n)%nat -> (e + Z.of_nat n <= 1022)%Z -> safely_nonsingular n (lu_margin n e) a ->
  finv n a (ldiag (fun _ _ => n0)) (n - 1) l u rt cnt -> grow n e (n - 1) l u -> safe n e a l u rt.
Proof.
  intros Hn Hen NS Hinv Hg. split; [exact (make_good n e a l u rt cnt Hn Hen Hinv Hg)| |].
  - intros i Hi. pose proof Hinv as (_ & _ & _ & _ & Hup & _). rewrite Hup by lia. unfold ldiag. now rewrite Nat.eqb_refl.
  - intros i Hi. exact (pivots_away n e a _ Hen NS l u rt cnt i Hn Hinv Hg Hi).
Qed.
Lemma dense_safe (A L0 P0 : DenseI NumF64) n e a : (0 < n)%nat -> MatI.holds A n n a -> MatI.holds L0 n n (fun _ _ => n0) -> MatI.holds P0 n n (fun _ _ => n0) ->
  doubles2 n n a -> (-1074 <= e)%Z -> (e + Z.of_nat n <= 1022)%Z -> entries_bounded n e a -> safely_nonsingular n (lu_margin n e) a ->
  returns (doolittle_dense A L0 P0) (lu_safe n e a).
Proof.
  intros Hn HA HL0 HP0 Da He Hen Ha NS. apply post_returns with (fun _ => False); [|tauto].
  unfold doolittle_dense. rewrite (holds_rows _ _ _ _ HA), (holds_cols _ _ _ _ HA), (holds_rows _ _ _ _ HL0), (holds_cols _ _ _ _ HL0), (holds_rows _ _ _ _ HP0), (holds_cols _ _ _ _ HP0).
  rewrite Nat.eqb_refl. cbn [negb orb].
  eapply post_mono; [apply (main_g (fun x => x) dense_sets (fun _ => eq_refl) (fun _ H => H) (fun _ => conj (fun H => H) (fun H => H)) eq_refl n a (fun _ _ => n0) (fun _ _ => n0) e A L0); try exact (bounded_bpow n e a Ha); auto|..].
  - intros i j _ _. reflexivity.
  - exists P0. auto.
  - intros (((L, U), P), cnt) (l & u & rt & H1 & H2 & H3 & H4 & H5 & H6). exists l, u, rt. split; [exact H1|]. split; [exact H2|]. split; [exact H3|].
    exact (make_safe n e a l u rt cnt Hn Hen NS H4 H5).
  - intros ex (_ & k & l & u & rt & cnt & H). exact (not_stuck n e a _ Hen NS k l u rt cnt H).
Qed.
Lemma sparse_safe (A : SparseI NumF64) n e a : (0 < n)%nat -> MatI.holds A n n a ->
  doubles2 n n a -> (-1074 <= e)%Z -> (e + Z.of_nat n <= 1022)%Z -> entries_bounded n e a -> safely_nonsingular n (lu_margin n e) a ->
  returns (doolittle_sparse A) (lu_safe n e a).
Proof.
  intros Hn HA Da He Hen Ha NS. apply post_returns with (fun _ => False); [|tauto].
  unfold doolittle_sparse. rewrite (holds_rows _ _ _ _ HA), (holds_cols _ _ _ _ HA). rewrite Nat.eqb_refl. cbn [negb].
  assert (Z : exists m, @mi_new NumF64 (SparseI NumF64) n n = Ok m /\ MatI.holds m n n (fun _ _ => n0)).
  { destruct (SparseProofs.srep_new (N := NumF64) n n Hn Hn) as (m & E & _). exists m. split; [exact E|].
    apply s_holds. split; [eapply b_new; eauto|]. now apply (new_inv NumF64_zero_laws) in E. }
  destruct Z as (Zm & E & HZm). rewrite E. cbn [bind].
  eapply post_mono; [apply (main_g norm0 sparse_sets norm0_real norm0_double norm0_finite eq_refl n a (fun _ _ => n0) (fun _ _ => n0) e A Zm); try exact (bounded_bpow n e a Ha); auto|..].
  - intros i j _ _. reflexivity.
  - exists Zm. auto.
  - intros (((L, U), P), cnt) (l & u & rt & H1 & H2 & H3 & H4 & H5 & H6). exists l, u, rt. split; [exact H1|]. split; [exact H2|]. split; [exact H3|].
    exact (make_safe n e a l u rt cnt Hn Hen NS H4 H5).
  - intros ex (_ & k & l & u & rt & cnt & H). exact (not_stuck n e a _ Hen NS k l u rt cnt H).
Qed.
Lemma safe_success {I : MatI NumF64} n e a (r : I * I * I * nat) : (e + Z.of_nat n <= 1022)%Z -> lu_safe n e a r -> lu_success n e a r.
Proof.
  destruct r as (((L, U), P), cnt). intros Hen (l & u & rt & HL & HU & HP & [G O Pv]). exists l, u, rt. split; [exact HL|]. split; [exact HU|]. split; [exact HP|].
  split; [exact (gd_perm _ _ _ _ _ _ G)|]. split.
  { intros i j Hi Hj. destruct G as [_ Dl Du Fl Fu Bl Bu _]. auto 10. }
  split; [auto|]. intros i j Hi Hj. rewrite Rabs_minus_sym.
  assert (Hus : lu_usable n l u).
  { split; [|split]; [intros; apply (gd_fl _ _ _ _ _ _ G); lia|intros; apply (gd_fu _ _ _ _ _ _ G); lia|exact (good_pivots n e a l u rt Hen G)]. }
  eapply Rle_trans; [exact (proj2 (gd_b _ _ _ _ _ _ G Hus) i j Hi Hj)|].
  unfold lu_error. assert (Bp : 0 < powerRZ 2 (e + Z.of_nat n)) by (apply powerRZ_lt; lra). apply row_bound_le.
  - unfold lu_terms. eapply Rle_trans; [apply (rsum_const _ (powerRZ 2 (e + Z.of_nat n)))|].
    + intros t Ht. rewrite Rabs_mult. rewrite <- (Rmult_1_l (powerRZ 2 (e + Z.of_nat n))). apply Rmult_le_compat; try apply Rabs_pos; [apply (gd_l _ _ _ _ _ _ G)|apply (gd_u _ _ _ _ _ _ G)]; lia.
    + apply Rmult_le_compat_r; [lra|]. apply le_INR. lia.
  - rewrite (Rabs_pos_eq (powerRZ _ _)) by lra. apply (gd_u _ _ _ _ _ _ G); auto.
Qed.

(** ** Matrices with an inverse of moderate size *)
Lemma max_row n (x : nat -> R) : (0 < n)%nat -> exists i, (i < n)%nat /\ forall j, (j < n)%nat -> Rabs (x j) <= Rabs (x i).
Proof.
  intros Hn. induction n as [|n IH]; [lia|]. destruct n as [|n].
  - exists 0%nat. split; [lia|]. intros j Hj. replace j with 0%nat by lia. lra.
  - destruct IH as (i & Hi & Hm); [lia|]. destruct (Rle_lt_dec (Rabs (x (S n))) (Rabs (x i))).
    + exists i. split; [lia|]. intros j Hj. destruct (Nat.eq_dec j (S n)) as [->|]; [assumption|apply Hm; lia].
    + exists (S n). split; [lia|]. intros j Hj. destruct (Nat.eq_dec j (S n)) as [->|]; [lra|]. eapply Rle_trans; [apply Hm; lia|lra].
Qed.
Lemma injective_det n (b : nat -> nat -> R) : (forall x : nat -> R, (forall i, (i < n)%nat -> rsum n (fun j => b i j * x j) = 0) -> forall j, (j < n)%nat -> x j = 0) ->
  det (N := NumR) n b <> 0.
Proof.
  intros Inj. 
  assert (Sol : forall c : nat -> R, exists x : nat -> R, forall i, (i < n)%nat -> rsum n (fun j => b i j * x j) = c i).
  { intros c. destruct (injective_solvable (N := NumR) RF n b) with (b := c) as (x & Hx).
    - intros x H. apply Inj. intros i Hi. specialize (H i Hi). unfold mulvec in H. rewrite <- rsum_bigsum in H. exact H.
    - exists x. intros i Hi. specialize (Hx i Hi). unfold mulvec in Hx. rewrite <- rsum_bigsum in Hx. exact Hx. }
  assert (Cols : exists y : nat -> nat -> R, forall j, (j < n)%nat -> forall i, (i < n)%nat -> rsum n (fun k => b i k * y k j) = if (i =? j)%nat then 1 else 0).
  { clear - Sol. assert (H : forall m, exists y : nat -> nat -> R, forall j, (j < m)%nat -> forall i, (i < n)%nat -> rsum n (fun k => b i k * y k j) = if (i =? j)%nat then 1 else 0).
    { induction m as [|m (y & Hy)]; [exists (fun _ _ => 0); lia|]. destruct (Sol (fun i => if (i =? m)%nat then 1 else 0)) as (x & Hx).
      exists (fun k j => if (j =? m)%nat then x k else y k j). intros j Hj i Hi. destruct (Nat.eqb_spec j m) as [->|]; [now apply Hx|apply Hy; lia]. }
    apply H. }
  destruct Cols as (y & Hy). apply (right_inverse_det (N := NumR) NumR_ord n b y). intros i j Hi Hj. specialize (Hy j Hj i Hi). rewrite rsum_bigsum in Hy. exact Hy.
Qed.
Lemma inverse_safe n d a y : real_inverse n a y -> 0 <= d -> (forall i, (i < n)%nat -> INR n * d * row_norm n y i < 1) -> safely_nonsingular n d a.
Proof.
  intros Hy Hd Hc E HE. apply injective_det. intros x Hx j Hj.
  destruct (max_row n x ltac:(lia)) as (i & Hi & Hm).
  assert (X : x i = - rsum n (fun k => y i k * rsum n (fun j => E k j * x j))).
  { assert (A1 : rsum n (fun k => y i k * rsum n (fun j => real (a k j) * x j)) = x i).
    { rewrite (rsum_ext n _ (fun k => rsum n (fun j => y i k * real (a k j) * x j))).
      2: { intros k Hk. rewrite <- rsum_scal. apply rsum_ext. intros; ring. }
      rewrite rsum_exch. rewrite (rsum_ext n _ (fun j => (if (i =? j)%nat then 1 else 0) * x j)).
      2: { intros j' Hj'. rewrite <- (Hy i j') by auto. rewrite <- rsum_scal_r. reflexivity. }
      rewrite rsum_bigsum, (bigsum_single RF n i); auto; [rewrite Nat.eqb_refl; apply Rmult_1_l|]. intros t Ht Hne. destruct (Nat.eqb_spec i t); [congruence|]. apply Rmult_0_l. }
    assert (A2 : rsum n (fun k => y i k * rsum n (fun j => real (a k j) * x j)) + rsum n (fun k => y i k * rsum n (fun j => E k j * x j)) = 0).
    { rewrite <- rsum_plus. rewrite (rsum_ext n _ (fun _ => 0)); [clear; induction n as [|m IH]; cbn [rsum]; lra|].
      intros k Hk. rewrite <- Rmult_plus_distr_l, <- rsum_plus. rewrite (rsum_ext n _ (fun j => perturbed a E k j * x j)) by (intros; unfold perturbed; ring).
      rewrite (Hx k Hk). ring. }
    lra. }
  assert (B : Rabs (x i) <= INR n * d * row_norm n y i * Rabs (x i)).
  { rewrite X at 1. rewrite Rabs_Ropp. eapply Rle_trans; [apply rsum_abs|].
    apply Rle_trans with (rsum n (fun k => Rabs (y i k) * (INR n * (d * Rabs (x i))))).
    - apply rsum_le. intros k Hk. rewrite Rabs_mult. apply Rmult_le_compat_l; [apply Rabs_pos|].
      eapply Rle_trans; [apply rsum_abs|]. apply rsum_const. intros t Ht. rewrite Rabs_mult. apply Rmult_le_compat; try apply Rabs_pos; auto.
    - rewrite rsum_scal_r. unfold row_norm. right. ring. }
  specialize (Hc i Hi). pose proof (Rabs_pos (x i)). assert (Z : Rabs (x i) = 0) by nra.
  specialize (Hm j Hj). rewrite Z in Hm. destruct (Req_dec (x j) 0) as [|Hne]; [assumption|]. apply Rabs_pos_lt in Hne. lra.
Qed.
(** The forward error. *)
Lemma forward_error n e a b x y : real_inverse n a y -> residual n e a b x -> forall i, (i < n)%nat ->
  Rabs (real (x i) - rsum n (fun k => y i k * real (b k))) <= row_norm n y i * solve_error n e (rsum n (fun j => Rabs (real (x j)))).
Proof.
  intros Hy Hr i Hi.
  assert (A1 : rsum n (fun k => y i k * rsum n (fun j => real (a k j) * real (x j))) = real (x i)).
  { rewrite (rsum_ext n _ (fun k => rsum n (fun j => y i k * real (a k j) * real (x j)))).
    2: { intros k Hk. rewrite <- rsum_scal. apply rsum_ext. intros; ring. }
    rewrite rsum_exch. rewrite (rsum_ext n _ (fun j => (if (i =? j)%nat then 1 else 0) * real (x j))).
    2: { intros j' Hj'. rewrite <- (Hy i j') by auto. rewrite <- rsum_scal_r. reflexivity. }
    rewrite rsum_bigsum, (bigsum_single RF n i); auto; [rewrite Nat.eqb_refl; apply Rmult_1_l|]. intros t Ht Hne. destruct (Nat.eqb_spec i t); [congruence|]. apply Rmult_0_l. }
  rewrite <- A1. rewrite <- rsum_minus. eapply Rle_trans; [apply rsum_abs|]. unfold row_norm. rewrite <- rsum_scal_r.
  apply rsum_le. intros k Hk. rewrite <- Rmult_minus_distr_l, Rabs_mult. apply Rmult_le_compat_l; [apply Rabs_pos|]. apply Hr; auto.
Qed.

(** ** Substitution without overflow *)
Lemma sub_step (s l y : NumF64) K : double s -> finite s -> double l -> finite l -> double y -> finite y -> (-1074 <= K)%Z -> (K + 1 <= 1023)%Z ->
  Rabs (real s) <= bpow radix2 K -> Rabs (real l * real y) <= bpow radix2 K ->
  double (s - l * y)%num /\ finite (s - l * y)%num /\ Rabs (real (s - l * y)%num) <= bpow radix2 (K + 1).
Proof.
  intros Ds Fs Dl Fl Dy Fy H1 H2 Bs Bp. assert (Dm : double (l * y)%num) by (apply mul_double; assumption).
  pose proof (rnd_le_bpow _ K H1 Bp) as R1.
  assert (Fm : finite (l * y)%num) by (apply mul_finite; auto; eapply Rle_lt_trans; [exact R1|apply bpow_lt; lia]).
  assert (X : Rabs (real s - real (l * y)%num) <= bpow radix2 (K + 1)).
  { rewrite (mul_real l y Dl Dy Fm), bpow_plus. change (bpow radix2 1) with 2. eapply Rle_trans; [apply Rabs_triang|]. rewrite Rabs_Ropp. lra. }
  apply rnd_le_bpow in X; [|lia].
  assert (Fd : finite (s - l * y)%num) by (apply sub_finite; auto; eapply Rle_lt_trans; [exact X|apply bpow_lt; lia]).
  split; [apply sub_double; assumption|]. split; [exact Fd|]. rewrite (sub_real s (l * y)%num Ds Dm Fd). exact X.
Qed.
Lemma div_step (t d : NumF64) K q : double t -> finite t -> double d -> finite d -> (-1074 <= K + q)%Z -> (K + q <= 1023)%Z ->
  Rabs (real t) <= bpow radix2 K -> bpow radix2 (- q) <= Rabs (real d) ->
  double (t / d)%num /\ finite (t / d)%num /\ Rabs (real (t / d)%num) <= bpow radix2 (K + q).
Proof.
  intros Dt Ft Dd Fd H1 H2 Bt Bd. pose proof (bpow_gt_0 radix2 (- q)) as Q. assert (Ad : 0 < Rabs (real d)) by lra.
  assert (Nz : real d <> 0) by (intros E; rewrite E, Rabs_R0 in Ad; lra).
  assert (X : Rabs (real t / real d) <= bpow radix2 (K + q)).
  { unfold Rdiv. rewrite Rabs_mult, Rabs_inv, bpow_plus. apply Rmult_le_compat; try apply Rabs_pos; [apply Rlt_le, Rinv_0_lt_compat; lra|exact Bt|].
    replace q with (- - q)%Z by lia. rewrite bpow_opp. apply Rinv_le; lra. }
  apply rnd_le_bpow in X; [|lia].
  assert (F : finite (t / d)%num) by (apply div_finite; auto; eapply Rle_lt_trans; [exact X|apply bpow_lt; lia]).
  split; [apply div_double; assumption|]. split; [exact F|]. rewrite (div_real t d Dt Dd Fd F). exact X.
Qed.
(** Subtracting the products in order: the j-th is at most 2^(K+j). *)
Lemma chain_step keep (f v : nat -> NumF64) K m : forall lo s, (-1074 <= K + Z.of_nat lo)%Z -> (K + Z.of_nat (lo + m) <= 1023)%Z ->
  double s -> finite s -> Rabs (real s) <= bpow radix2 (K + Z.of_nat lo) ->
  (forall j, (lo <= j < lo + m)%nat -> double (f j) /\ finite (f j) /\ double (v j) /\ finite (v j) /\ Rabs (real (f j) * real (v j)) <= bpow radix2 (K + Z.of_nat j)) ->
  let c := chain (cols keep f lo m) v s in double c /\ finite c /\ Rabs (real c) <= bpow radix2 (K + Z.of_nat (lo + m)).
Proof.
  induction m as [|m IH]; intros lo s H1 H2 Ds Fs Bs H.
  - cbn. rewrite Nat.add_0_r. auto.
  - destruct (H lo ltac:(lia)) as (Df & Ff & Dv & Fv & Bp).
    assert (Mono : bpow radix2 (K + Z.of_nat lo) <= bpow radix2 (K + Z.of_nat (S lo))) by (apply bpow_le; lia).
    replace (lo + S m)%nat with (S lo + m)%nat by lia. unfold cols. cbn [seq filter]. destruct (keep lo).
    + cbn [map]. unfold chain. cbn [fold_left fst snd].
      destruct (sub_step s (f lo) (v lo) (K + Z.of_nat lo)) as (D' & F' & B'); auto; try lia.
      apply (IH (S lo)); auto; try lia.
      * eapply Rle_trans; [exact B'|]. apply bpow_le. lia.
      * intros j Hj. apply H. lia.
    + apply (IH (S lo)); auto; try lia; [lra|]. intros j Hj. apply H. lia.
Qed.
Lemma one_facts : double n1 /\ finite n1 /\ bpow radix2 (- 0) <= Rabs (real n1).
Proof. split; [reflexivity|]. split; [exact Logic.I|]. rewrite real_n1, Rabs_R1. change (bpow radix2 (- 0)) with 1. lra. Qed.

Section Solve.
Context {M : RowMat NumF64} (HR : RowReads M) (nz : NumF64 -> NumF64) (HS : SetLaws (I := M) nz).
Hypothesis Zr : forall x, real (nz x) = real x.
Hypothesis Zf : forall x, finite (nz x) <-> finite x.
Hypothesis HP : forall (P : M) n rt b, MatI.holds P n n (perm_table rt) -> Permutation rt (seq 0 n) -> length b = n -> doubles b ->
    (forall j, (j < n)%nat -> finite (nth j b n0)) -> exists pb, mo_mulv P b = Ok pb /\ permuted n rt b pb.
Variables (n : nat) (e s : Z) (a l u : nat -> nat -> NumF64) (rt : list nat) (L U P : M).
Hypothesis Hn : (0 < n)%nat.
Hypothesis Hen : (e + Z.of_nat n <= 1022)%Z.
Hypothesis G : safe n e a l u rt.
Hypothesis HL : MatI.holds L n n l.
Hypothesis HU : MatI.holds U n n u.
Hypothesis HPm : MatI.holds P n n (perm_table rt).
Hypothesis Room : room n e s.
Lemma l_one_not_tiny i : (i < n)%nat -> tiny (l i i) = false.
Proof. intros Hi. rewrite (sf_one _ _ _ _ _ _ G i Hi). vm_compute. reflexivity. Qed.
Lemma u_not_tiny i : (i < n)%nat -> tiny (u i i) = false.
Proof.
  intros Hi. destruct (tiny (u i i)) eqn:E; [|reflexivity]. pose proof (sf_good _ _ _ _ _ _ G) as Gd.
  apply (tiny_real _ (gd_du _ _ _ _ _ _ Gd i i Hi Hi) (gd_fu _ _ _ _ _ _ Gd i i Hi Hi)) in E.
  pose proof (sf_piv _ _ _ _ _ _ G i Hi) as Q. rewrite pivot_b in Q. lra.
Qed.
Lemma solve_finite b : length b = n -> doubles b -> (forall j, (j < n)%nat -> finite (nth j b n0) /\ Rabs (real (nth j b n0)) <= bpow radix2 s) ->
  returns (solve_lu L U b) (fun x => length x = n /\ forall i, (i < n)%nat -> finite (nth i x n0)).
Proof.
  intros Lb Db Fb. destruct Room as (Rs & Rr). pose proof (sf_good _ _ _ _ _ _ G) as [_ Dl Du Fl Fu Bl Bu _].
  apply post_returns with (fun _ => False); [|tauto]. unfold solve_lu.
  rewrite (holds_rows _ _ _ _ HL), (holds_rows _ _ _ _ HU), (holds_cols _ _ _ _ HL), (holds_cols _ _ _ _ HU).
  unfold v_size. rewrite Lb, !Nat.eqb_refl. cbn [negb].
  apply post_bind. eapply post_mono; [apply (forward_chain HR L n l b HL Lb)| |].
  2: { intros ex (_ & i & Hi & E). rewrite l_one_not_tiny in E by auto. discriminate E. }
  intros y (Ly & Hy).
  set (c := (Z.max 0 (e + Z.of_nat n) + Z.of_nat n + 52)%Z) in *. assert (Cp : (0 <= Z.of_nat n * c)%Z) by (apply Z.mul_nonneg_nonneg; lia).
  assert (Y : forall i, (i < n)%nat -> double (nth i y n0) /\ finite (nth i y n0) /\ Rabs (real (nth i y n0)) <= bpow radix2 (s + Z.of_nat i)).
  { intros i. induction i as [i IH] using (well_founded_induction lt_wf). intros Hi.
    destruct (Hy i Hi) as (_ & kp & K & E). rewrite E. rewrite (sf_one _ _ _ _ _ _ G i Hi). destruct one_facts as (D1 & F1 & B1).
    destruct (chain_step kp (l i) (fun j => nth j y n0) s i 0 (nth i b n0)) as (Dc & Fc & Bc).
    - lia.
    - lia.
    - apply Db, nth_In. lia.
    - apply Fb. exact Hi.
    - rewrite Z.add_0_r. apply Fb. exact Hi.
    - intros j Hj. destruct (IH j ltac:(lia) ltac:(lia)) as (Dy & Fy & By). split; [apply Dl; lia|]. split; [apply Fl; lia|]. split; [exact Dy|]. split; [exact Fy|].
      rewrite Rabs_mult. rewrite <- (Rmult_1_l (bpow _ _)). apply Rmult_le_compat; try apply Rabs_pos; [apply Bl; lia|exact By].
    - destruct (div_step (chain (cols kp (l i) 0 i) (fun j => nth j y n0) (nth i b n0)) n1 (s + Z.of_nat i) 0) as (D2 & F2 & B2); auto; try lia.
      rewrite Z.add_0_r in B2. auto. }
  eapply post_mono; [apply (backward_chain HR U n u y HU Ly Hn)| |].
  2: { intros ex (_ & i & Hi & E). rewrite u_not_tiny in E by auto. discriminate E. }
  intros x (Lx & Hx). split; [exact Lx|].
  assert (X : forall k, (k <= n)%nat -> forall i, (n - k <= i < n)%nat -> double (nth i x n0) /\ finite (nth i x n0) /\
      Rabs (real (nth i x n0)) <= bpow radix2 (s + Z.of_nat n + Z.of_nat (n - i) * c)).
  { induction k as [|k IH]; intros Hk i Hi; [lia|]. destruct (Nat.eq_dec i (n - S k)) as [Ei|Ne]; [|apply IH; lia].
    destruct (Hx i ltac:(lia)) as (_ & kp & K & E). rewrite E. destruct (Y i ltac:(lia)) as (Dy & Fy & By).
    assert (C1 : (0 <= Z.of_nat (n - S i) * c)%Z) by (apply Z.mul_nonneg_nonneg; lia).
    assert (C2 : (Z.of_nat (n - i) * c <= Z.of_nat n * c)%Z) by (apply Z.mul_le_mono_nonneg_r; lia).
    assert (C3 : (Z.of_nat (n - i) * c = Z.of_nat (n - S i) * c + c)%Z) by (replace (Z.of_nat (n - i)) with (Z.of_nat (n - S i) + 1)%Z by lia; ring).
    set (q := (s + Z.of_nat n + Z.of_nat (n - S i) * c + Z.max 0 (e + Z.of_nat n))%Z).
    destruct (chain_step kp (u i) (fun j => nth j x n0) (q - Z.of_nat (S i)) (n - S i) (S i) (nth i y n0)) as (Dc & Fc & Bc).
    - unfold q. lia.
    - unfold q. lia.
    - exact Dy.
    - exact Fy.
    - eapply Rle_trans; [exact By|]. apply bpow_le. unfold q. lia.
    - intros j Hj. destruct (IH ltac:(lia) j ltac:(lia)) as (Dx & Fx & Bx). split; [apply Du; lia|]. split; [apply Fu; lia|]. split; [exact Dx|]. split; [exact Fx|].
      assert (C4 : (Z.of_nat (n - j) * c <= Z.of_nat (n - S i) * c)%Z) by (apply Z.mul_le_mono_nonneg_r; lia).
      rewrite Rabs_mult. apply Rle_trans with (bpow radix2 (e + Z.of_nat n) * bpow radix2 (s + Z.of_nat n + Z.of_nat (n - j) * c)).
      + apply Rmult_le_compat; try apply Rabs_pos; [rewrite bpow_powerRZ; apply Bu; lia|exact Bx].
      + rewrite <- bpow_plus. apply bpow_le. unfold q. lia.
    - set (K1 := (q - Z.of_nat (S i) + Z.of_nat (S i + (n - S i)))%Z) in *. assert (K2 : (K1 + 52 <= s + Z.of_nat n + Z.of_nat (n - i) * c)%Z) by (unfold K1, q, c in *; lia).
      destruct (div_step (chain (cols kp (u i) (S i) (n - S i)) (fun j => nth j x n0) (nth i y n0)) (u i i) K1 52) as (D2 & F2 & B2); auto.
      + apply Du; lia.
      + apply Fu; lia.
      + unfold K1, q. lia.
      + lia.
      + pose proof (sf_piv _ _ _ _ _ _ G i ltac:(lia)) as Q. rewrite pivot_b in Q. change (- (52))%Z with (-52)%Z. lra.
      + split; [exact D2|]. split; [exact F2|]. eapply Rle_trans; [exact B2|]. apply bpow_le. exact K2. }
  intros i Hi. apply (X n); lia.
Qed.
Lemma solve_returns b : length b = n -> exists x, solve_lu L U b = Ok x.
Proof.
  intros Lb. assert (R : returns (solve_lu L U b) (fun _ => True)).
  { apply post_returns with (fun _ => False); [|tauto]. unfold solve_lu.
    rewrite (holds_rows _ _ _ _ HL), (holds_rows _ _ _ _ HU), (holds_cols _ _ _ _ HL), (holds_cols _ _ _ _ HU).
    unfold v_size. rewrite Lb, !Nat.eqb_refl. cbn [negb].
    apply post_bind. eapply post_mono; [apply (forward_chain HR L n l b HL Lb)| |].
    2: { intros ex (_ & i & Hi & E). rewrite l_one_not_tiny in E by auto. discriminate E. }
    intros y (Ly & Hy). eapply post_mono; [apply (backward_chain HR U n u y HU Ly Hn)|auto|].
    intros ex (_ & i & Hi & E). rewrite u_not_tiny in E by auto. discriminate E. }
  destruct R as (x & E & _). eauto.
Qed.
Lemma solve_safe b : length b = n -> doubles b -> (forall j, (j < n)%nat -> finite (nth j b n0) /\ Rabs (real (nth j b n0)) <= bpow radix2 s) ->
  returns (let* pb := mo_mulv P b in solve_lu L U pb) (fun x => length x = n /\ solves_finite n e a (fun i => nth i b n0) (fun i => nth i x n0)).
Proof.
  intros Lb Db Fb. pose proof (sf_good _ _ _ _ _ _ G) as Gd.
  pose proof (solve_good HR HP n e a l u rt L U P Hn Hen Gd HL HU HPm b Lb Db (fun j Hj => proj1 (Fb j Hj))) as Post.
  destruct (HP P n rt b HPm (gd_perm _ _ _ _ _ _ Gd) Lb Db (fun j Hj => proj1 (Fb j Hj))) as (pb & E & Lp & Dp & Vp).
  rewrite E in *. cbn [bind] in *.
  destruct (solve_finite pb Lp Dp) as (x & Ex & Lx & Fx).
  { intros j Hj. destruct (Vp j Hj) as (Fp & ->). split; [exact Fp|]. apply Fb. apply perm_lt; [exact (gd_perm _ _ _ _ _ _ Gd)|exact Hj]. }
  rewrite Ex in *. cbn [post] in Post. exists x. split; [reflexivity|]. split; [exact Lx|]. split; [exact Fx|]. apply Post. exact Fx.
Qed.
Lemma solve_all_safe b : length b = n -> doubles b -> (forall j, (j < n)%nat -> finite (nth j b n0)) ->
  returns (let* pb := mo_mulv P b in solve_lu L U pb) (fun x => length x = n /\
    ((forall i, (i < n)%nat -> finite (nth i x n0)) -> residual n e a (fun i => nth i b n0) (fun i => nth i x n0))).
Proof.
  intros Lb Db Fb. pose proof (sf_good _ _ _ _ _ _ G) as Gd.
  pose proof (solve_good HR HP n e a l u rt L U P Hn Hen Gd HL HU HPm b Lb Db Fb) as Post.
  destruct (HP P n rt b HPm (gd_perm _ _ _ _ _ _ Gd) Lb Db Fb) as (pb & E & Lp & _).
  rewrite E in *. cbn [bind] in *. destruct (solve_returns pb Lp) as (x & Ex). rewrite Ex in *. exists x. split; [reflexivity|exact Post].
Qed.
Lemma inverse_safe_f : (s = 0)%Z -> returns (inverse3 L U P) (fun X => exists x, MatI.holds X n n x /\
    forall c, (c < n)%nat -> solves_finite n e a (fun i => if (i =? c)%nat then n1 else n0) (fun i => x i c)).
Proof.
  intros Es. unfold inverse3.
  rewrite (MatIProofs.holds_rows _ _ _ _ HL), (MatIProofs.holds_cols _ _ _ _ HL), (MatIProofs.holds_rows _ _ _ _ HU), (MatIProofs.holds_cols _ _ _ _ HU),
    (MatIProofs.holds_rows _ _ _ _ HPm), (MatIProofs.holds_cols _ _ _ _ HPm), Nat.eqb_refl. cbn [negb].
  apply post_returns with (fun _ => False); [|tauto]. apply post_bind.
  eapply post_mono; [apply (for_post (fun k (st : list NumF64 * M) => fst st = v_new n /\ exists x, MatI.holds (snd st) n n x /\
      forall c, (c < k)%nat -> solves_finite n e a (fun i => if (i =? c)%nat then n1 else n0) (fun i => x i c))
      (fun _ => False)); try lia| |auto].
  - cbn [fst snd]. split; auto. exists l. split; auto. lia.
  - intros i (b, X) Hi (Eb & x & HX & Hx). cbn [fst snd] in *. subst b.
    assert (Hlen : length (@v_new NumF64 n) = n) by apply repeat_length.
    rewrite v_set_ok by lia. cbn [bind].
    assert (Hb : forall j, (j < n)%nat -> nth j (upd (@v_new NumF64 n) i n1) n0 = if (j =? i)%nat then n1 else n0).
    { intros j Hj. destruct (Nat.eqb_spec j i) as [->|Hne]; [apply nth_upd_eq; lia|]. rewrite nth_upd_ne by auto. unfold v_new. apply nth_repeat. }
    assert (Lb : length (upd (@v_new NumF64 n) i n1) = n) by (rewrite upd_length; lia).
    destruct (solve_safe (upd (v_new n) i n1) Lb) as (y & Ey & Ly & Fy & Hres).
    + intros y Hy. apply In_nth with (d := n0) in Hy as (j & Hj & <-). rewrite Hb by lia. destruct (j =? i)%nat; reflexivity.
    + intros j Hj. rewrite Hb by lia. rewrite Es. change (bpow radix2 0) with 1. destruct (j =? i)%nat; (split; [exact Logic.I|]); [rewrite real_n1, Rabs_R1|change (real n0) with 0; rewrite Rabs_R0]; lra.
    + rewrite <- bind_assoc. match type of Ey with ?t = _ => match goal with |- post (bind ?x _) _ _ => change x with t end end. rewrite Ey. cbn [bind].
      destruct (col_z nz HS n Hn (fun j => nth j y n0) (v_at y) X x i) as (X' & E & HX'); [intros j Hj; apply v_at_ok; lia|exact HX|lia|].
      rewrite E. cbn [bind]. rewrite v_set_ok by (rewrite upd_length; lia). cbn [bind post fst snd]. split.
      { rewrite upd_upd. replace (@n0 NumF64) with (nth i (@v_new NumF64 n) n0) by (unfold v_new; apply nth_repeat). apply upd_same. lia. }
      eexists. split; [exact HX'|]. intros c Hc. destruct (Nat.eq_dec c i) as [->|Hne].
      * split.
        { intros r Hr. cbn beta. rewrite Nat.eqb_refl. apply Zf. apply Fy; auto. }
        intros r Hr. specialize (Hres r Hr). cbn beta. rewrite Nat.eqb_refl. cbn beta in Hres. rewrite Hb in Hres by exact Hr.
        erewrite (rsum_ext n (fun j => real (a r j) * real (nz (nth j y n0)))) by (intros j Hj; rewrite Zr; reflexivity).
        erewrite (rsum_ext n (fun j => Rabs (real (nz (nth j y n0))))) by (intros j Hj; rewrite Zr; reflexivity). exact Hres.
      * specialize (Hx c ltac:(lia)). assert (Q : (c =? i)%nat = false) by (now apply Nat.eqb_neq). destruct Hx as (Fx & Hx). split.
        { intros r Hr. cbn beta. rewrite Q. apply Fx; auto. }
        intros r Hr. cbn beta. rewrite Q in *. apply Hx; auto.
  - intros (b, X) (_ & x & HX & Hx). cbn [snd post]. exists x. auto.
Qed.
End Solve.
