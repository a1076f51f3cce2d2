(** Rounding errors of the pivoted LU decomposition (doolittle) on doubles, for both storages. *)
From Coq Require Import ZArith Reals List Arith Bool SpecFloat Lia Lra Permutation.
From Flocq Require Import Core Relative.
From Verif Require Import Base BaseProofs Num NumInst Spec SpecProofs VectorModel VectorProofs
  SparseModel SparseSpec SparseFacts SparseFacts2 SparsePropProofs DenseModel DenseSpec DenseProofs DensePropProofs MatI MatIProofs MatOps MatOpsProofs OrderProofs
  ConstructProofs DetSpec DetProofs LUModel LUProofs LUSolve FloatSpec FloatLUSpec F64Flocq FloatProofs FloatResult FloatSolve.
Import ListNotations.
Local Open Scope nat_scope.
Open Scope res_scope.

(** ** The loops.  A stored value v reads back as nz v. *)
Section Loops.
Context {N : Num} {I : MatI N} (nz : N -> N).
Definition SetLaws : Prop := forall (m : I) d1 d2 a i j v, MatI.holds m d1 d2 a -> i < d1 -> j < d2 ->
  exists m', mi_set m i j v = Ok m' /\ MatI.holds m' d1 d2 (put2 a i j (nz v)).
Hypothesis HS : SetLaws.

Lemma pivot_z (U : I) n k u : MatI.holds U n n u -> k < n -> returns (lu_pivot U n k) (fun i => k <= i < n).
Proof.
  intros HU Hk. unfold lu_pivot. rewrite (holds_at _ _ _ _ _ _ HU) by lia. cbn [bind].
  assert (R : returns (for_ (k + 1) n (fun j st => let* v := mi_at U j k in Ok (if nleb (fst st) (nabs v) then (nabs v, j) else st)) (nabs (u k k), k))
    (fun st => k <= snd st < n)).
  { apply (for_returns (fun m st => k <= snd st < n)); [lia| |].
    - cbn [snd]. lia.
    - intros j (m, i) Hj H1. cbn [fst snd] in *. rewrite (holds_at _ _ _ _ _ _ HU) by lia. cbn [bind].
      destruct (nleb m (nabs (u j k))); eexists; (split; [reflexivity|]); cbn [snd]; lia. }
  destruct R as ((m, i) & -> & H1). cbn [bind snd]. exists i. auto.
Qed.

Definition swz (a : nat -> nat -> N) (i k lo hi r c : nat) : N :=
  if (lo <=? c) && (c <? hi) then (if r =? i then nz (a k c) else if r =? k then nz (a i c) else a r c) else a r c.
Lemma swap_z (M : I) n a i k lo hi : MatI.holds M n n a -> i < n -> k < n -> i <> k -> lo <= hi -> hi <= n ->
  returns (lu_swap M i k lo hi) (fun M' => MatI.holds M' n n (swz a i k lo hi)).
Proof.
  intros HM Hi Hk Hne Hlo Hhi. unfold lu_swap.
  apply (for_returns (fun m M' => MatI.holds M' n n (swz a i k lo m))); auto.
  - eapply holds_ext; [exact HM|]. intros r c Hr Hc. unfold swz. bcase; auto.
  - intros j s Hj Hs. rewrite !(holds_at _ _ _ _ _ _ Hs) by lia. cbn [bind].
    destruct (HS _ _ _ _ k j (swz a i k lo j i j) Hs) as (s1 & E1 & Hs1); try lia.
    rewrite E1. cbn [bind].
    destruct (HS _ _ _ _ i j (swz a i k lo j k j) Hs1) as (s2 & E2 & Hs2); try lia.
    rewrite E2. exists s2. split; auto. eapply holds_ext; [exact Hs2|]. intros r c Hr Hc. unfold put2, swz. cbn beta.
    bcase; subst; auto.
Qed.

Definition elz (l u : nat -> nat -> N) k r c : N := if (k <? r) && (c =? k) then nz (u r k * (n1 / u k k))%num else l r c.
Definition euz (u : nat -> nat -> N) k r c : N := if (k <? r) && (k <=? c) then nz (u r c - nz (u r k * (n1 / u k k)) * u k c)%num else u r c.
Lemma elim_z (L U : I) n k l u : MatI.holds L n n l -> MatI.holds U n n u -> k < n ->
  returns (lu_elim L U n k) (fun LU => MatI.holds (fst LU) n n (elz l u k) /\ MatI.holds (snd LU) n n (euz u k)).
Proof.
  intros HLl HU Hk. unfold lu_elim. rewrite (holds_at _ _ _ _ _ _ HU) by lia. cbn [bind].
  apply returns_mono with (fun LU => MatI.holds (fst LU) n n (fun r c => if r <? n then elz l u k r c else l r c) /\
      MatI.holds (snd LU) n n (fun r c => if r <? n then euz u k r c else u r c)).
  - apply (for_returns (fun m LU => MatI.holds (fst LU) n n (fun r c => if r <? m then elz l u k r c else l r c) /\
      MatI.holds (snd LU) n n (fun r c => if r <? m then euz u k r c else u r c))); try lia.
    + cbn [fst snd]. split; (eapply holds_ext; [eassumption|]); intros r c Hr Hc; unfold elz, euz; bcase; auto.
    + intros j (L1, U1) Hj (H1 & H2). cbn [fst snd] in *.
      rewrite (holds_at _ _ _ _ _ _ H2) by lia. cbn [bind].
      set (lv := ((if j <? j then euz u k j k else u j k) * (n1 / u k k))%num) in *.
      destruct (HS _ _ _ _ j k lv H1) as (L2 & -> & HL2); try lia. cbn [bind].
      assert (R : returns (for_ k n (fun t U => let* x := mi_at U j t in let* lx := mi_at L2 j k in let* y := mi_at U k t in
          mi_set U j t (x - lx * y)%num) U1)
        (fun U' => MatI.holds U' n n (fun r c => if r <? S j then euz u k r c else u r c))).
      { apply returns_mono with (fun U' => MatI.holds U' n n (fun r c => if (r <? j) || ((r =? j) && (c <? n)) then euz u k r c else u r c));
          [|intros U' HU'; eapply holds_ext; [exact HU'|]; intros r c Hr Hc; cbn beta; bcase; auto].
        apply (for_returns (fun m U' => MatI.holds U' n n (fun r c => if (r <? j) || ((r =? j) && (c <? m)) then euz u k r c else u r c))); try lia.
        - eapply holds_ext; [exact H2|]. intros r c Hr Hc. unfold euz. bcase; auto.
        - intros t Ut Ht HUt. rewrite !(holds_at _ _ _ _ _ _ HUt), (holds_at _ _ _ _ _ _ HL2) by lia. cbn [bind].
          match goal with |- context [mi_set Ut j t ?v] => destruct (HS _ _ _ _ j t v HUt) as (s1 & E1 & Hs1); try lia end.
          exists s1. split; auto. eapply holds_ext; [exact Hs1|]. intros r c Hr Hc. unfold put2, euz, lv. cbn beta.
          bcase; subst; auto.
        }
      destruct R as (U2 & -> & HU2). cbn [bind]. eexists. split; [reflexivity|]. cbn [fst snd]. split; auto.
      eapply holds_ext; [exact HL2|]. intros r c Hr Hc. unfold put2, elz, lv. cbn beta. bcase; subst; auto.
  - intros (L1, U1) (H1 & H2). cbn [fst snd] in *. split; (eapply holds_ext; [eassumption|]); intros r c Hr Hc; cbn beta; bcase; auto.
Qed.
End Loops.

Lemma dense_sets : SetLaws (I := DenseI NumF64) (fun x => x).
Proof. intros m d1 d2 a i j v H Hi Hj. exact (holds_set dense_laws m d1 d2 a i j v H Hi Hj). Qed.
Lemma sparse_sets : SetLaws (I := SparseI NumF64) norm0.
Proof.
  intros m d1 d2 a i j v H Hi Hj. apply s_holds in H. destruct H as (Hb & Hr).
  destruct (fact_set NumF64_zero_laws m d1 d2 a i j v (built_inv NumF64_zero_laws m Hb) Hr Hi Hj) as (m' & E & _ & R).
  exists m'. split; [exact E|]. apply s_holds. split; [eapply b_set; eauto|]. exact R.
Qed.

(** ** Error of one entry *)
Local Open Scope R_scope.
Definition res_ok (m : nat) (s p q t : R) : Prop :=
  Rabs (s - p - t) <= ((1 + u64) ^ m - 1) * q + ((1 + u64) ^ m - 1) * Rabs t + INR m * (1 + u64) ^ m * eta64.
Lemma res_start s : res_ok 0 s 0 0 s.
Proof. unfold res_ok. replace (s - 0 - s) with 0 by ring. rewrite Rabs_R0. cbn [pow INR]. lra. Qed.

Lemma res_step m s p q (x l y : NumF64) : 0 <= q -> double x -> double l -> double y -> res_ok m s p q (real x) ->
  finite (x - l * y)%num -> res_ok (S m) s (p + real l * real y) (q + Rabs (real l * real y)) (real (x - l * y)%num).
Proof.
  intros Hq Dx Dl Dy H F. destruct (sub_finite_args _ _ F) as (Fx & Fp).
  assert (Dp : double (l * y)%num) by now apply mul_double.
  pose proof (sub_back _ _ Dx Dp F) as B. pose proof (mul_fwd _ _ Dl Dy Fp) as M. revert B M H. unfold res_ok.
  generalize (real (x - l * y)%num) as t'. generalize (real (l * y)%num) as r. generalize (real l * real y) as ly. generalize (real x) as t.
  intros t ly r t' B M H. pose proof u64_pos as Hu. pose proof eta64_pos as He. pose proof (pow_ge_1 m) as Hp.
  cbn [pow]. rewrite S_INR. set (w := (1 + u64) ^ m) in *. set (u := u64) in *. set (e := eta64) in *.
  pose proof (pos_INR m) as Hm.
  assert (T : Rabs t <= (1 + u) * Rabs ly + e + (1 + u) * Rabs t').
  { replace t with ((t - r - t') + (r - ly) + ly + t') by ring.
    eapply Rle_trans; [apply Rabs_triang|]. eapply Rle_trans; [apply Rplus_le_compat_r, Rabs_triang|].
    eapply Rle_trans; [apply Rplus_le_compat_r, Rplus_le_compat_r, Rabs_triang|]. lra. }
  replace (s - (p + ly) - t') with ((s - p - t) + (t - r - t') + (r - ly)) by ring.
  eapply Rle_trans; [apply Rabs_triang|]. eapply Rle_trans; [apply Rplus_le_compat_r, Rabs_triang|].
  pose proof (Rabs_pos ly) as P1. pose proof (Rabs_pos t') as P2.
  assert (T1 : (w - 1) * Rabs t <= (w - 1) * ((1 + u) * Rabs ly + e + (1 + u) * Rabs t')) by (apply Rmult_le_compat_l; lra).
  assert (Q1 : 0 <= w * u * q) by (apply Rmult_le_pos; [apply Rmult_le_pos; lra|lra]).
  assert (E1 : 0 <= (INR m + 1) * w * u * e) by (apply Rmult_le_pos; [|lra]; apply Rmult_le_pos; [|lra]; apply Rmult_le_pos; lra).
  lra.
Qed.

Lemma real_n1 : real n1 = 1.
Proof.
  cbn [n1 NumF64]. replace (f64_of_Z 1) with (S754_finite false (2 ^ 52) (-52)) by (vm_compute; reflexivity). cbn [real].
  change (Z.pos (2 ^ 52)) with (radix2 ^ 52)%Z. rewrite (IZR_Zpower radix2 52) by lia. rewrite bpow_powerRZ.
  change (IZR radix2) with 2. rewrite <- powerRZ_add by lra. reflexivity.
Qed.
Lemma recip_back (d : NumF64) : double d -> finite d -> Rabs (real d) <= powerRZ 2 1022 -> finite (n1 / d)%num ->
  real d <> 0 /\ Rabs (1 - real (n1 / d)%num * real d) <= u64 * Rabs (real (n1 / d)%num * real d).
Proof.
  intros Dd Fd Hd F. assert (D1 : double n1) by reflexivity.
  destruct (div_finite_args _ _ Dd F) as (_ & Hz). specialize (Hz Fd). split; [exact Hz|].
  rewrite (div_real n1 d D1 Dd Fd F). assert (P : Prec_gt_0 53) by reflexivity.
  rewrite real_n1.
  assert (Ab : 0 < Rabs (real d)) by now apply Rabs_pos_lt.
  assert (L : bpow radix2 (-1074 + 53 - 1) <= Rabs (1 / real d)).
  { unfold Rdiv. rewrite Rmult_1_l, Rabs_inv. change (-1074 + 53 - 1)%Z with (- (1022))%Z. rewrite bpow_opp.
    apply Rinv_le; [exact Ab|]. rewrite bpow_powerRZ. exact Hd. }
  pose proof (relative_error_N_FLT_round radix2 (-1074) 53 P (fun x => negb (Z.even x)) (1 / real d) L) as E.
  rewrite <- u64_bpow in E. set (i := rnd (1 / real d)) in *.
  replace (1 - i * real d) with ((1 / real d - i) * real d) by (field; exact Hz).
  rewrite !Rabs_mult, <- Rmult_assoc. apply Rmult_le_compat_r; [lra|]. rewrite Rabs_minus_sym. exact E.
Qed.

Lemma res_div m s p q (t d : NumF64) : 0 <= q -> double t -> double d -> finite d -> Rabs (real d) <= powerRZ 2 1022 ->
  res_ok m s p q (real t) -> let l := (t * (n1 / d))%num in finite l ->
  Rabs (s - (p + real l * real d)) <= row_bound (m + 2) (q + Rabs (real l * real d)) (real d).
Proof.
  intros Hq Dt Dd Fd Hd H. cbv zeta. intros F. destruct (mul_finite_args _ _ F) as (Ft & Fi).
  destruct (recip_back d Dd Fd Hd Fi) as (Hz & Hi).
  assert (Di : double (n1 / d)%num) by (apply div_double; [reflexivity|exact Dd]).
  assert (B : Rabs (real t * real (n1 / d)%num - real (t * (n1 / d))%num) <= u64 * Rabs (real (t * (n1 / d))%num) + eta64).
  { rewrite (mul_real _ _ Dt Di F). apply rnd_back. }
  revert H Hi B. unfold res_ok, row_bound. generalize (real (t * (n1 / d))%num) as l. generalize (real (n1 / d)%num) as i.
  generalize (real t) as t0. generalize (real d) as e0. clear - Hq. intros d t i l H Hi B.
  pose proof u64_pos as Hu. pose proof eta64_pos as He. pose proof (pow_ge_1 m) as Hp. pose proof (pos_INR m) as Hm.
  assert (W : (1 + u64) ^ (m + 2) = (1 + u64) ^ m * ((1 + u64) * (1 + u64))) by (rewrite pow_add; cbn [pow]; ring). rewrite W.
  rewrite plus_INR. change (INR 2) with 2%R.
  set (w := (1 + u64) ^ m) in *. set (u := u64) in *. set (e := eta64) in *.
  assert (A1 : Rabs (t * i * d) <= (1 + u) * Rabs (l * d) + e * Rabs d).
  { replace (t * i * d) with (l * d + (t * i - l) * d) by ring. eapply Rle_trans; [apply Rabs_triang|].
    rewrite (Rabs_mult (t * i - l)), (Rabs_mult l d). pose proof (Rabs_pos d) as Pd.
    apply (Rmult_le_compat_r (Rabs d)) in B; [|exact Pd]. lra. }
  assert (A2 : Rabs (t - l * d) <= ((1 + u) * (1 + u) - 1) * Rabs (l * d) + (1 + u) * e * Rabs d).
  { replace (t - l * d) with (t * (1 - i * d) + (t * i - l) * d) by ring. eapply Rle_trans; [apply Rabs_triang|].
    rewrite (Rabs_mult t), (Rabs_mult (t * i - l)).
    assert (X : Rabs t * Rabs (1 - i * d) <= u * Rabs (t * i * d)).
    { replace (t * i * d) with (t * (i * d)) by ring. rewrite (Rabs_mult t). 
      apply (Rmult_le_compat_l (Rabs t)) in Hi; [|apply Rabs_pos]. lra. }
    pose proof (Rabs_pos d) as Pd. apply (Rmult_le_compat_r (Rabs d)) in B; [|exact Pd].
    apply (Rmult_le_compat_l u) in A1; [|lra]. rewrite (Rabs_mult l d) in *. lra. }
  pose proof (Rabs_pos (l * d)) as Pl. pose proof (Rabs_pos d) as Pd.
  assert (A3 : Rabs t <= (1 + u) * (1 + u) * Rabs (l * d) + (1 + u) * e * Rabs d).
  { replace t with ((t - l * d) + l * d) at 1 by ring. eapply Rle_trans; [apply Rabs_triang|]. lra. }
  replace (s - (p + l * d)) with ((s - p - t) + (t - l * d)) by ring. eapply Rle_trans; [apply Rabs_triang|].
  assert (T1 : (w - 1) * Rabs t <= (w - 1) * ((1 + u) * (1 + u) * Rabs (l * d) + (1 + u) * e * Rabs d)) by (apply Rmult_le_compat_l; lra).
  set (z := u + u + u * u). assert (Z : 0 <= z) by (unfold z; nra).
  replace ((1 + u) * (1 + u)) with (1 + z) in * by (unfold z; ring).
  assert (Q1 : 0 <= w * z * q) by (apply Rmult_le_pos; [apply Rmult_le_pos; lra|lra]).
  assert (E1 : 0 <= INR m * w * z * e) by (apply Rmult_le_pos; [|lra]; apply Rmult_le_pos; [|lra]; apply Rmult_le_pos; lra).
  assert (E2 : 0 <= 2 * w * (1 + z) * e) by (apply Rmult_le_pos; [|lra]; apply Rmult_le_pos; [|lra]; apply Rmult_le_pos; lra).
  assert (E3 : w * (1 + u) * e * Rabs d <= w * (1 + z) * e * Rabs d).
  { apply Rmult_le_compat_r; [lra|]. apply Rmult_le_compat_r; [lra|]. apply Rmult_le_compat_l; [lra|]. unfold z. nra. }
  lra.
Qed.

(** ** Multipliers do not exceed 1 *)
Lemma u64_b : u64 = bpow radix2 (-53).
Proof. unfold u64. now rewrite bpow_powerRZ. Qed.
Lemma rnd_one_up : rnd (1 + u64) = 1.
Proof.
  assert (P : Prec_gt_0 53) by reflexivity.
  assert (B : bpow radix2 (-53) <= 1) by (change 1 with (bpow radix2 0); apply bpow_le; lia).
  assert (Mg : mag radix2 (1 + u64) = 1%Z :> Z).
  { apply mag_unique_pos. rewrite u64_b. change (bpow radix2 (1 - 1)) with 1. change (bpow radix2 1) with 2.
    pose proof (bpow_gt_0 radix2 (-53)). split; [lra|].
    assert (bpow radix2 (-53) < 1) by (change 1 with (bpow radix2 0); apply bpow_lt; lia). lra. }
  unfold round, scaled_mantissa, cexp. rewrite Mg. change (fexp64 1) with (-52)%Z. change (- (-52))%Z with 52%Z.
  assert (E : (1 + u64) * bpow radix2 52 = IZR (2 ^ 52) + / 2).
  { rewrite u64_b. rewrite Rmult_plus_distr_r, <- bpow_plus. change (-53 + 52)%Z with (-1)%Z.
    change (bpow radix2 52) with (IZR (2 ^ 52)). change (bpow radix2 (-1)) with (/ 2). lra. }
  rewrite E. unfold Znearest. assert (F : Zfloor (IZR (2 ^ 52) + / 2) = (2 ^ 52)%Z).
  { apply Zfloor_imp. rewrite plus_IZR. lra. }
  rewrite F. replace (IZR (2 ^ 52) + / 2 - IZR (2 ^ 52)) with (/ 2) by lra. rewrite Rcompare_Eq by reflexivity.
  change (negb (Z.even (2 ^ 52))) with false. cbv iota. unfold F2R. cbn [Fnum Fexp].
  change (IZR (2 ^ 52)) with (bpow radix2 52). rewrite <- bpow_plus. reflexivity.
Qed.
Lemma mult_le_1 (t d : NumF64) : double t -> double d -> finite d -> Rabs (real d) <= powerRZ 2 1022 ->
  Rabs (real t) <= Rabs (real d) -> finite (t * (n1 / d))%num -> Rabs (real (t * (n1 / d))%num) <= 1.
Proof.
  intros Dt Dd Fd Hd Ht F. destruct (mul_finite_args _ _ F) as (Ft & Fi). assert (D1 : double n1) by reflexivity.
  destruct (recip_back d Dd Fd Hd Fi) as (Hz & _).
  assert (Di : double (n1 / d)%num) by (apply div_double; auto).
  rewrite (mul_real _ _ Dt Di F), (div_real n1 d D1 Dd Fd Fi), real_n1. assert (P : Prec_gt_0 53) by reflexivity.
  assert (Ab : 0 < Rabs (real d)) by now apply Rabs_pos_lt.
  assert (L : bpow radix2 (-1074 + 53 - 1) <= Rabs (1 / real d)).
  { unfold Rdiv. rewrite Rmult_1_l, Rabs_inv. change (-1074 + 53 - 1)%Z with (- (1022))%Z. rewrite bpow_opp.
    apply Rinv_le; [exact Ab|]. rewrite bpow_powerRZ. exact Hd. }
  pose proof (relative_error_N_FLT radix2 (-1074) 53 P (fun x => negb (Z.even x)) (1 / real d) L) as E.
  rewrite <- u64_bpow in E. set (i := rnd (1 / real d)) in *.
  assert (X : Rabs (real t * i) <= 1 + u64).
  { rewrite Rabs_mult. apply Rle_trans with (Rabs (real d) * Rabs i); [apply Rmult_le_compat_r; [apply Rabs_pos|exact Ht]|].
    assert (Y : Rabs i <= (1 + u64) * Rabs (1 / real d)).
    { replace i with ((i - 1 / real d) + 1 / real d) by ring. eapply Rle_trans; [apply Rabs_triang|]. lra. }
    apply (Rmult_le_compat_l (Rabs (real d))) in Y; [|lra]. unfold Rdiv in *. rewrite Rmult_1_l, Rabs_inv in *.
    replace (Rabs (real d) * ((1 + u64) * / Rabs (real d))) with (1 + u64) in Y by (field; lra). exact Y. }
  rewrite <- rnd_one_up. rewrite <- (round_NE_abs radix2 fexp64). apply round_le; [typeclasses eauto|typeclasses eauto|exact X].
Qed.
Lemma nabs_real (x : NumF64) : real (nabs x) = Rabs (real x) /\ (finite (nabs x) <-> finite x) /\ (double x -> double (nabs x)).
Proof.
  destruct x as [s|s| |s m e]; cbn [nabs NumF64 SFabs].
  - cbn [real]. rewrite Rabs_R0. repeat split; auto.
  - cbn [real finite]. rewrite Rabs_R0. repeat split; auto.
  - cbn [real finite]. rewrite Rabs_R0. repeat split; auto.
  - split; [|split; [reflexivity|intros D; exact D]]. cbn [real]. rewrite Rabs_mult. rewrite (Rabs_pos_eq (powerRZ 2 e)) by (apply powerRZ_le; lra).
    f_equal. rewrite <- abs_IZR. now destruct s.
Qed.
Lemma pivot_max {I : MatI NumF64} (U : I) n k u : MatI.holds U n n u -> doubles2 n n u -> (k < n)%nat ->
  returns (lu_pivot U n k) (fun i => (k <= i < n)%nat /\
    ((forall j, (k <= j < n)%nat -> finite (u j k)) -> forall j, (k <= j < n)%nat -> Rabs (real (u j k)) <= Rabs (real (u i k)))).
Proof.
  intros HU Du Hk. unfold lu_pivot. rewrite (holds_at _ _ _ _ _ _ HU) by lia. cbn [bind].
  assert (R : returns (for_ (k + 1) n (fun j st => let* v := mi_at U j k in Ok (if nleb (fst st) (nabs v) then (nabs v, j) else st)) (nabs (u k k), k))
    (fun st => (k <= snd st < n)%nat /\ fst st = nabs (u (snd st) k) /\
      ((forall j, (k <= j < n)%nat -> finite (u j k)) -> forall j, (k <= j < n)%nat -> Rabs (real (u j k)) <= Rabs (real (u (snd st) k))))).
  { apply (for_returns (fun m st => (k <= snd st < n)%nat /\ fst st = nabs (u (snd st) k) /\
      ((forall j, (k <= j < n)%nat -> finite (u j k)) -> forall j, (k <= j < m)%nat -> Rabs (real (u j k)) <= Rabs (real (u (snd st) k))))); [lia| |].
    - cbn [fst snd]. split; [lia|]. split; [reflexivity|]. intros _ j Hj. replace j with k by lia. lra.
    - intros j (m, i) Hj (H1 & H2 & H3). cbn [fst snd] in *. rewrite (holds_at _ _ _ _ _ _ HU) by lia. cbn [bind]. subst m.
      destruct (nabs_real (u i k)) as (Ri & Fi & Di). destruct (nabs_real (u j k)) as (Rj & Fj & Dj).
      assert (Hc : finite (u i k) -> finite (u j k) -> (nleb (nabs (u i k)) (nabs (u j k)) = true <-> Rabs (real (u i k)) <= Rabs (real (u j k)))).
      { intros F1 F2. rewrite <- Ri, <- Rj. apply leb_real; [apply Di, Du; lia|apply Dj, Du; lia|now apply Fi|now apply Fj]. }
      destruct (nleb (nabs (u i k)) (nabs (u j k))) eqn:E; (eexists; split; [reflexivity|]); cbn [fst snd].
      + split; [lia|]. split; [reflexivity|]. intros HF r Hr.
        assert (X : Rabs (real (u i k)) <= Rabs (real (u j k))) by (apply Hc; auto; apply HF; lia).
        destruct (Nat.eq_dec r j) as [->|Hne]; [lra|]. specialize (H3 HF r). assert (Q : (k <= r < j)%nat) by lia. specialize (H3 Q). lra.
      + split; [lia|]. split; [reflexivity|]. intros HF r Hr.
        destruct (Nat.eq_dec r j) as [->|Hne]; [|apply H3; auto; lia].
        destruct (Rle_lt_dec (Rabs (real (u i k))) (Rabs (real (u j k)))) as [X|X]; [|lra].
        apply Hc in X; [discriminate| |]; apply HF; lia. }
  destruct R as ((m, i) & -> & H1 & _ & H3). cbn [bind fst snd] in *. exists i. auto.
Qed.

(** ** The elimination as a whole *)
Section LUFloat.
Context {I : MatI NumF64} (nz : NumF64 -> NumF64) (HS : SetLaws (I := I) nz).
Hypothesis Zr : forall x, real (nz x) = real x.
Hypothesis Zd : forall x, double x -> double (nz x).
Hypothesis Zf : forall x, finite (nz x) <-> finite x.
Variables (n : nat) (a l0 : nat -> nat -> NumF64).

Definition psum (l u : nat -> nat -> NumF64) (m i j : nat) : R := rsum m (fun t => real (l i t) * real (u t j)).
Definition psuma (l u : nat -> nat -> NumF64) (m i j : nat) : R := rsum m (fun t => Rabs (real (l i t) * real (u t j))).
Definition finv_a k l u rt : Prop := forall i j, (i < n)%nat -> (j < n)%nat -> (i <= j \/ k <= j)%nat -> finite (u i j) ->
  res_ok (min k i) (real (a (nth i rt 0%nat) j)) (psum l u (min k i) i j) (psuma l u (min k i) i j) (real (u i j)).
Definition finv_b k l u rt : Prop := forall i j, (i < n)%nat -> (j < i)%nat -> (j < k)%nat -> finite (l i j) -> finite (u j j) ->
  Rabs (real (u j j)) <= powerRZ 2 1022 ->
  Rabs (real (a (nth i rt 0%nat) j) - psum l u (S j) i j) <= row_bound (j + 2) (psuma l u (S j) i j) (real (u j j)).
Definition finv_c k (l u : nat -> nat -> NumF64) : Prop := forall j, (j < k)%nat -> (forall r, (j < r < n)%nat -> finite (l r j)) -> finite (u j j) ->
  Rabs (real (u j j)) <= powerRZ 2 1022 -> forall r, (j < r < n)%nat -> Rabs (real (l r j)) <= 1.
Definition finv k l u rt cnt : Prop := exchanges n rt cnt /\ Permutation rt (seq 0 n) /\ doubles2 n n l /\ doubles2 n n u /\
  (forall i j, (i < n)%nat -> (j < n)%nat -> (i <= j \/ k <= j)%nat -> l i j = l0 i j) /\ finv_a k l u rt /\ finv_b k l u rt /\ finv_c k l u.

Lemma psum_ext l u l' u' m i i' j : (forall t, (t < m)%nat -> real (l i t) = real (l' i' t) /\ real (u t j) = real (u' t j)) ->
  psum l u m i j = psum l' u' m i' j /\ psuma l u m i j = psuma l' u' m i' j.
Proof. intros H. split; apply rsum_ext; intros t Ht; destruct (H t Ht) as [-> ->]; reflexivity. Qed.
Lemma psuma_pos l u m i j : 0 <= psuma l u m i j.
Proof. apply rsum_pos. intros. apply Rabs_pos. Qed.

Definition sg (i k r : nat) : nat := if (r =? i)%nat then k else if (r =? k)%nat then i else r.
Lemma sg_sg i k r : sg i k (sg i k r) = r.
Proof.
  unfold sg. destruct (Nat.eqb_spec r i) as [->|E1].
  - destruct (Nat.eqb_spec k i) as [->|E2]; auto. now rewrite Nat.eqb_refl.
  - destruct (Nat.eqb_spec r k) as [->|E2]; [now rewrite Nat.eqb_refl|].
    destruct (Nat.eqb_spec r i); [lia|]. destruct (Nat.eqb_spec r k); [lia|auto].
Qed.
Lemma swz_in v i k lo hi r c : (lo <= c < hi)%nat -> real (swz nz v i k lo hi r c) = real (v (sg i k r) c) /\
  (finite (swz nz v i k lo hi r c) <-> finite (v (sg i k r) c)).
Proof.
  intros H. unfold swz, sg. replace (lo <=? c)%nat with true by (symmetry; apply Nat.leb_le; lia).
  replace (c <? hi)%nat with true by (symmetry; apply Nat.ltb_lt; lia). cbn [andb].
  destruct (r =? i)%nat; [|destruct (r =? k)%nat]; rewrite ?Zr, ?Zf; tauto.
Qed.
Lemma swz_row v i k lo hi r c : r <> i -> r <> k -> swz nz v i k lo hi r c = v r c.
Proof. intros H1 H2. unfold swz. bcase; auto. Qed.
Lemma swz_out v i k lo hi r c : (c < lo \/ hi <= c)%nat -> swz nz v i k lo hi r c = v r c.
Proof. intros H. unfold swz. bcase; auto. Qed.
Lemma swz_double v i k lo hi : doubles2 n n v -> (i < n)%nat -> (k < n)%nat -> (hi <= n)%nat -> doubles2 n n (swz nz v i k lo hi).
Proof. intros D Hi Hk Hh r c Hr Hc. unfold swz. bcase; try apply Zd; apply D; auto. Qed.

Lemma finv_swap k l u rt cnt i : finv k l u rt cnt -> (k < i)%nat -> (i < n)%nat ->
  finv k (swz nz l i k 0 k) (swz nz u i k k n) (swap_at rt i k) (S cnt).
Proof.
  intros (H1 & H2 & H3 & H4 & H5 & HA & HB & HC) Hk Hi. pose proof (perm_length _ _ H2) as Hlen.
  assert (Nt : forall r, (r < n)%nat -> nth r (swap_at rt i k) 0%nat = nth (sg i k r) rt 0%nat).
  { intros r Hr. rewrite swap_at_nth by lia. unfold sg. destruct (r =? i)%nat; auto. destruct (r =? k)%nat; auto. }
  assert (Sg : forall r, (r < k)%nat -> sg i k r = r) by (intros r Hr; unfold sg; bcase; auto).
  assert (Sl : forall r, (r < n)%nat -> (k <= r)%nat -> (k <= sg i k r < n)%nat) by (intros r Hr; unfold sg; bcase; lia).
  assert (Ur : forall t j, (t < k)%nat -> swz nz u i k k n t j = u t j) by (intros t j Ht; apply swz_row; lia).
  split; [apply (ex_one n rt cnt _ i k); auto; try lia; [now rewrite swap_at_length|intros; apply swap_at_nth; lia]|].
  split; [apply swap_at_perm; auto; lia|]. split; [apply swz_double; auto; lia|]. split; [apply swz_double; auto; lia|].
  split; [|split; [|split]].
  - intros r c Hr Hc Hx. destruct (Nat.lt_ge_cases c k) as [L|L].
    + rewrite swz_row by lia. apply H5; auto.
    + rewrite swz_out by lia. apply H5; auto.
  - intros r j Hr Hj Hx F. rewrite (Nt r Hr). destruct (Nat.lt_ge_cases r k) as [L|L].
    + rewrite (Sg r L). rewrite swz_row in F by lia. rewrite swz_row by lia.
      destruct (psum_ext (swz nz l i k 0 k) (swz nz u i k k n) l u (min k r) r r j) as [-> ->]; [|now apply HA].
      intros t Ht. rewrite (Ur t j) by lia. rewrite swz_row by lia. auto.
    + assert (Hjk : (k <= j < n)%nat) by lia. destruct (swz_in u i k k n r j Hjk) as (-> & Fe). apply Fe in F.
      pose proof (Sl r Hr L) as Hs. replace (min k r) with (min k (sg i k r)) by lia.
      destruct (psum_ext (swz nz l i k 0 k) (swz nz u i k k n) l u (min k (sg i k r)) r (sg i k r) j) as [-> ->].
      { intros t Ht. rewrite (Ur t j) by lia. split; [|reflexivity]. apply swz_in. lia. }
      apply HA; auto; lia.
  - intros r j Hr Hj Hjk Fl Fu. rewrite (Ur j j Hjk) in *. intros Hb. rewrite (Nt r Hr).
    assert (Hc : (0 <= j < k)%nat) by lia. destruct (swz_in l i k 0 k r j Hc) as (_ & Fe). apply Fe in Fl.
    destruct (psum_ext (swz nz l i k 0 k) (swz nz u i k k n) l u (S j) r (sg i k r) j) as [-> ->].
    { intros t Ht. rewrite (Ur t j) by lia. split; [|reflexivity]. apply swz_in. lia. }
    apply HB; auto; destruct (Nat.lt_ge_cases r k) as [L|L]; [rewrite Sg; auto|apply Sl; auto|rewrite Sg; auto|pose proof (Sl r Hr L); lia].
  - intros j Hjk Fl Fu. rewrite (Ur j j Hjk) in *. intros Hb r Hr.
    assert (Hc : (0 <= j < k)%nat) by lia. destruct (swz_in l i k 0 k r j Hc) as (-> & _).
    apply (HC j Hjk); auto.
    + intros q Hq. destruct (Nat.lt_ge_cases q k) as [L|L].
      * specialize (Fl q Hq). apply (swz_in l i k 0 k q j Hc) in Fl. now rewrite (Sg q L) in Fl.
      * assert (Hq' : (j < sg i k q < n)%nat) by (pose proof (Sl q (proj2 Hq) L); lia).
        specialize (Fl _ Hq'). apply (swz_in l i k 0 k _ j Hc) in Fl.
        replace (sg i k (sg i k q)) with q in Fl; auto. symmetry. apply sg_sg.
    + destruct (Nat.lt_ge_cases r k) as [L|L]; [rewrite (Sg r L); lia|pose proof (Sl r (proj2 Hr) L); lia].
Qed.

Lemma finv_elim k l u rt cnt : finv k l u rt cnt -> (S k < n)%nat ->
  ((forall j, (k <= j < n)%nat -> finite (u j k)) -> forall j, (k <= j < n)%nat -> Rabs (real (u j k)) <= Rabs (real (u k k))) ->
  finv (S k) (elz nz l u k) (euz nz u k) rt cnt.
Proof.
  intros (H1 & H2 & H3 & H4 & H5 & HA & HB & HC) Hk Hmax.
  assert (D1 : double n1) by reflexivity.
  assert (Dl : forall r, (r < n)%nat -> double (u r k * (n1 / u k k))%num).
  { intros r Hr. apply mul_double; [apply H4; lia|]. apply div_double; [exact D1|apply H4; lia]. }
  assert (Ue : forall r c, (r <= k \/ c < k)%nat -> euz nz u k r c = u r c) by (intros; unfold euz; bcase; auto).
  assert (Un : forall r c, (k < r)%nat -> (k <= c)%nat -> euz nz u k r c = nz (u r c - nz (u r k * (n1 / u k k)) * u k c)%num) by (intros; unfold euz; bcase; auto).
  assert (Le : forall r c, (r <= k \/ c <> k)%nat -> elz nz l u k r c = l r c) by (intros; unfold elz; bcase; auto).
  assert (Ln : forall r, (k < r)%nat -> elz nz l u k r k = nz (u r k * (n1 / u k k))%num) by (intros; unfold elz; bcase; auto).
  split; [exact H1|]. split; [exact H2|]. split.
  { intros r c Hr Hc. unfold elz. bcase; first [apply H3; now auto|apply Zd, Dl; now auto]. }
  split.
  { intros r c Hr Hc. unfold euz. bcase; try (apply H4; now auto).
    apply Zd. apply sub_double; [apply H4; auto|]. apply mul_double; [apply Zd, Dl; auto|apply H4; lia]. }
  split; [intros r c Hr Hc Hx; rewrite Le by lia; apply H5; auto; lia|]. split; [|split].
  - intros r j Hr Hj Hx F. destruct (Nat.le_gt_cases r k) as [L|L].
    + rewrite Ue in F by lia. rewrite (Ue r j) by lia. replace (min (S k) r) with (min k r) by lia.
      destruct (psum_ext (elz nz l u k) (euz nz u k) l u (min k r) r r j) as [-> ->]; [|apply HA; auto; lia].
      intros t Ht. rewrite Le, Ue by lia. auto.
    + rewrite Un in F by lia. rewrite (Un r j) by lia. apply (proj1 (Zf _)) in F. rewrite Zr. replace (min (S k) r) with (S k) by lia.
      destruct (sub_finite_args _ _ F) as (Fx & _).
      assert (A1 : res_ok k (real (a (nth r rt 0%nat) j)) (psum l u k r j) (psuma l u k r j) (real (u r j))).
      { specialize (HA r j Hr Hj). replace (min k r) with k in HA by lia. apply HA; auto; lia. }
      unfold psum, psuma. cbn [rsum]. rewrite Ln by lia. rewrite (Ue k j) by lia.
      destruct (psum_ext (elz nz l u k) (euz nz u k) l u k r r j) as [E1 E2].
      { intros t Ht. rewrite Le, Ue by lia. auto. }
      unfold psum, psuma in E1, E2. rewrite E1, E2.
      apply res_step; [apply psuma_pos|apply H4; auto|apply Zd, Dl; auto|apply H4; lia|exact A1|exact F].
  - intros r j Hr Hj Hjk Fl Fu. rewrite (Ue j j) in * by lia. intros Hb.
    destruct (Nat.eq_dec j k) as [->|Hne].
    + rewrite Ln in Fl by lia. apply (proj1 (Zf _)) in Fl. destruct (mul_finite_args _ _ Fl) as (Ft & _).
      assert (A1 : res_ok k (real (a (nth r rt 0%nat) k)) (psum l u k r k) (psuma l u k r k) (real (u r k))).
      { specialize (HA r k Hr). replace (min k r) with k in HA by lia. apply HA; auto; lia. }
      unfold psum, psuma. cbn [rsum]. rewrite Ln by lia. rewrite (Ue k k) by lia. rewrite Zr.
      destruct (psum_ext (elz nz l u k) (euz nz u k) l u k r r k) as [E1 E2].
      { intros t Ht. rewrite Le, Ue by lia. auto. }
      unfold psum, psuma in E1, E2. rewrite E1, E2.
      apply res_div; [apply psuma_pos|apply H4; lia|apply H4; lia|exact Fu|exact Hb|exact A1|exact Fl].
    + rewrite Le in Fl by lia.
      destruct (psum_ext (elz nz l u k) (euz nz u k) l u (S j) r r j) as [-> ->]; [|apply HB; auto; lia].
      intros t Ht. rewrite Le, Ue by lia. auto.
  - intros j Hjk Fl Fu. rewrite (Ue j j) in * by lia. intros Hb r Hr.
    destruct (Nat.eq_dec j k) as [->|Hne].
    + assert (Fr : forall q, (k < q < n)%nat -> finite (u q k * (n1 / u k k))%num).
      { intros q Hq. specialize (Fl q Hq). rewrite Ln in Fl by lia. exact (proj1 (Zf _) Fl). }
      rewrite Ln by lia. rewrite Zr. apply mult_le_1; [apply H4; lia|apply H4; lia|exact Fu|exact Hb| |apply Fr; lia]. apply Hmax; [|lia].
      intros q Hq. destruct (Nat.eq_dec q k) as [->|Hqk]; [exact Fu|].
      destruct (mul_finite_args _ _ (Fr q ltac:(lia))); auto.
    + rewrite Le by lia. apply (HC j); auto; try lia. intros q Hq. specialize (Fl q Hq). rewrite Le in Fl by lia. exact Fl.
Qed.

Lemma column_f k (L U : I) l u rt cnt : (S k < n)%nat -> MatI.holds L n n l -> MatI.holds U n n u -> finv k l u rt cnt -> (cnt <= k)%nat ->
  post (lu_column n k (L, U, rt, cnt)) (fun st => let '(L', U', rt', cnt') := st in
      exists l' u', MatI.holds L' n n l' /\ MatI.holds U' n n u' /\ finv (S k) l' u' rt' cnt' /\ (cnt' <= S k)%nat) (fun e => e = Singular).
Proof.
  intros Hk HLl HU Hinv Hcnt. unfold lu_column. pose proof Hinv as (H1 & H2 & H3 & H4 & _). pose proof (perm_length _ _ H2) as Hlen.
  destruct (pivot_max U n k u HU H4) as (i & -> & Hi & Hmax); [lia|]. cbn [bind].
  match goal with |- context [if negb (i =? k)%nat then ?x else ?y] => set (step := if negb (i =? k)%nat then x else y) end.
  assert (R : returns step
    (fun st => let '(L1, U1, rt1, cnt1) := st in exists l1 u1, MatI.holds L1 n n l1 /\ MatI.holds U1 n n u1 /\
       finv k l1 u1 rt1 cnt1 /\ (cnt1 <= S k)%nat /\
       ((forall j, (k <= j < n)%nat -> finite (u1 j k)) -> forall j, (k <= j < n)%nat -> Rabs (real (u1 j k)) <= Rabs (real (u1 k k))))).
  { unfold step. destruct (Nat.eqb_spec i k) as [->|Hne]; cbn [negb].
    - eexists. split; [reflexivity|]. cbn beta iota. exists l, u. do 3 (split; [assumption|]). split; [lia|]. exact Hmax.
    - destruct (swap_z nz HS U n u i k k n HU) as (U1 & -> & HU1); try lia. cbn [bind].
      destruct (swap_z nz HS L n l i k 0 k HLl) as (L1 & -> & HL1); try lia. cbn [bind].
      rewrite !vget_ok with (d := 0%nat) by lia. cbn [bind]. rewrite vset_ok by lia. cbn [bind]. rewrite vset_ok by (rewrite upd_length; lia). cbn [bind].
      eexists. split; [reflexivity|]. cbn beta iota. do 2 eexists. split; [exact HL1|]. split; [exact HU1|].
      replace (cnt + 1)%nat with (S cnt) by lia. split; [apply finv_swap; auto; lia|]. split; [lia|].
      intros HF j Hj. assert (Hc : (k <= k < n)%nat) by lia.
      destruct (swz_in u i k k n j k Hc) as (-> & _). destruct (swz_in u i k k n k k Hc) as (-> & _).
      assert (Sk : sg i k k = i) by (unfold sg; rewrite Nat.eqb_refl; destruct (Nat.eqb_spec k i); lia). rewrite Sk.
      assert (Sj : forall r, (k <= r < n)%nat -> (k <= sg i k r < n)%nat).
      { intros r Hr. unfold sg. destruct (r =? i)%nat; [lia|]. destruct (r =? k)%nat; lia. }
      apply Hmax; [|apply Sj; lia]. intros r Hr. specialize (HF (sg i k r) (Sj r Hr)).
      apply (swz_in u i k k n _ k Hc) in HF. now rewrite sg_sg in HF. }
  destruct R as ((((L1, U1), rt1), cnt1) & -> & l1 & u1 & HL1 & HU1 & I1 & I2 & I3). cbn [bind].
  rewrite (holds_at _ _ _ _ _ _ HU1) by lia. cbn [bind].
  destruct (tiny (u1 k k)) eqn:Et; [reflexivity|].
  destruct (elim_z nz HS L1 U1 n k l1 u1 HL1 HU1) as ((L2, U2) & -> & HL2 & HU2); [lia|]. cbn [bind fst snd post].
  exists (elz nz l1 u1 k), (euz nz u1 k). split; auto. split; auto. split; [now apply finv_elim|exact I2].
Qed.
End LUFloat.

Lemma finv_bounds n a l0 l u rt cnt : (0 < n)%nat -> (forall i, (i < n)%nat -> l0 i i = n1) -> finv n a l0 (n - 1) l u rt cnt -> lu_bounds n a l u rt.
Proof.
  intros Hn Hd (H1 & H2 & H3 & H4 & H5 & HA & HB & HC) (Fl & Fu & Hb). unfold lu_terms. split.
  - intros i j Hij. apply (HC j); [lia|intros; apply Fl; lia|apply Fu; lia|apply Hb; lia|exact Hij].
  - intros i j Hi Hj. destruct (Nat.le_gt_cases i j) as [L|L].
    + rewrite Nat.min_l by lia. assert (F : finite (u i j)) by (apply Fu; lia).
      specialize (HA i j Hi Hj (or_introl L) F). replace (min (n - 1) i) with i in HA by lia. unfold res_ok, psum, psuma in HA.
      cbn [rsum]. rewrite H5 by lia. rewrite Hd by lia. rewrite real_n1, Rmult_1_l.
      set (p := rsum i (fun t => real (l i t) * real (u t j))) in *. set (q := rsum i (fun t => Rabs (real (l i t) * real (u t j)))) in *.
      assert (Q : 0 <= q) by (apply rsum_pos; intros; apply Rabs_pos).
      replace (real (a (nth i rt 0%nat) j) - (p + real (u i j))) with (real (a (nth i rt 0%nat) j) - p - real (u i j)) by ring.
      eapply Rle_trans; [exact HA|]. unfold row_bound. pose proof u64_pos. pose proof eta64_pos. pose proof (pow_ge_1 i). pose proof (pow_ge_1 (n + 1)).
      assert (W : (1 + u64) ^ i <= (1 + u64) ^ (n + 1)) by (apply Rle_pow; [lra|lia]).
      assert (M : INR i <= INR (n + 1)) by (apply le_INR; lia). pose proof (pos_INR i). pose proof (Rabs_pos (real (u j j))). pose proof (Rabs_pos (real (u i j))).
      rewrite <- Rmult_plus_distr_l. apply Rplus_le_compat.
      * apply Rmult_le_compat_r; lra.
      * apply Rmult_le_compat_r; [lra|]. apply Rmult_le_compat; lra.
    + rewrite Nat.min_r by lia. specialize (HB i j Hi L ltac:(lia) (Fl i j ltac:(lia)) (Fu j j ltac:(lia)) (Hb j Hj)).
      eapply Rle_trans; [exact HB|]. apply row_bound_mono; [lia|]. apply rsum_pos. intros. apply Rabs_pos.
Qed.

Section Main.
Context {I : MatI NumF64} (nz : NumF64 -> NumF64) (HS : SetLaws (I := I) nz).
Hypothesis Zr : forall x, real (nz x) = real x.
Hypothesis Zd : forall x, double x -> double (nz x).
Hypothesis Zf : forall x, finite (nz x) <-> finite x.
Hypothesis Z1 : nz n1 = n1.
Lemma diag_f (L0 : I) n l0 : MatI.holds L0 n n l0 ->
  returns (for_ 0 n (fun i L => mi_set L i i n1) L0) (fun L => MatI.holds L n n (fun i j => if (i =? j)%nat then n1 else l0 i j)).
Proof.
  intros H. apply returns_mono with (fun L => MatI.holds L n n (fun i j => if ((i =? j) && (i <? n))%nat then n1 else l0 i j)).
  - apply (for_returns (fun m L => MatI.holds L n n (fun i j => if ((i =? j) && (i <? m))%nat then n1 else l0 i j))); [lia| |].
    + eapply holds_ext; [exact H|]. intros i j Hi Hj. bcase; auto.
    + intros k s Hk Hs. destruct (HS _ _ _ _ k k n1 Hs) as (s' & E & Hs'); try lia. exists s'. split; auto.
      eapply holds_ext; [exact Hs'|]. intros i j Hi Hj. unfold put2. cbn beta. rewrite Z1. bcase; subst; auto.
  - intros L HL'. eapply holds_ext; [exact HL'|]. intros i j Hi Hj. bcase; auto.
Qed.
Lemma main_f n a l0 p0 (A L0 : I) newP : (0 < n)%nat -> MatI.holds A n n a -> MatI.holds L0 n n l0 -> doubles2 n n a -> doubles2 n n l0 ->
  returns newP (fun P0 => MatI.holds P0 n n p0) ->
  post (lu_main A L0 newP) (fun r => let '(L, U, P, cnt) := r in exists l u rt,
      MatI.holds L n n l /\ MatI.holds U n n u /\ MatI.holds P n n (fun i j => if (j =? nth i rt 0)%nat then n1 else p0 i j) /\
      exchanges n rt cnt /\ (cnt < n)%nat /\ Permutation rt (seq 0 n) /\ doubles2 n n l /\ doubles2 n n u /\
      (forall i j, (i < n)%nat -> (j < n)%nat -> (i <= j)%nat -> l i j = if (i =? j)%nat then n1 else l0 i j) /\
      lu_bounds n a l u rt) (fun e => e = Singular).
Proof.
  intros Hn HA HL0 Da Dl0 (P0 & EP & HP0). unfold lu_main. rewrite (holds_rows _ _ _ _ HA).
  destruct (diag_f L0 n l0 HL0) as (L1 & -> & HL1). cbn [bind].
  unfold usub. replace (1 <=? n)%nat with true by (symmetry; apply Nat.leb_le; lia). cbn [bind].
  set (ld := fun i j => if (i =? j)%nat then n1 else l0 i j) in *.
  assert (Dld : doubles2 n n ld) by (intros i j Hi Hj; unfold ld; destruct (i =? j)%nat; [reflexivity|apply Dl0; auto]).
  apply post_bind.
  eapply post_mono; [apply (for_post (fun k st => let '(L', U', rt', cnt') := st in
      exists l' u', MatI.holds L' n n l' /\ MatI.holds U' n n u' /\ finv n a ld k l' u' rt' cnt' /\ (cnt' <= k)%nat) (fun e => e = Singular)); try lia| |auto].
  - exists ld, a. split; [exact HL1|]. split; [exact HA|]. split; [|lia].
    split; [apply ex_none|]. split; [apply Permutation_refl|]. split; [exact Dld|]. split; [exact Da|]. split; [auto|]. split; [|split].
    + intros i j Hi Hj _ F. rewrite seq_nth by auto. cbn [Nat.min plus]. unfold psum, psuma. cbn [rsum]. apply res_start.
    + intros i j Hi Hj Hk. lia.
    + intros j Hk. lia.
  - intros k (((L', U'), rt'), cnt') Hk (l' & u' & HL' & HU' & Hi & Hc).
    exact (column_f nz HS Zr Zd Zf n a ld k L' U' l' u' rt' cnt' ltac:(lia) HL' HU' Hi Hc).
  - intros (((L', U'), rt'), cnt') (l' & u' & HL' & HU' & Hi & Hc). rewrite EP. cbn [bind].
    pose proof Hi as (Hex & HP & Dl & Du & Heq & _). pose proof (perm_length _ _ HP) as Hlen.
    assert (R : returns (for_ 0 n (fun i P => let* r := vget rt' i in mi_set P i r n1) P0)
      (fun P => MatI.holds P n n (fun i j => if ((i <? n) && (j =? nth i rt' 0))%nat then n1 else p0 i j))).
    { apply (for_returns (fun k P => MatI.holds P n n (fun i j => if ((i <? k) && (j =? nth i rt' 0))%nat then n1 else p0 i j))); try lia.
      - exact HP0.
      - intros k s Hk Hs. rewrite vget_ok with (d := 0%nat) by lia. cbn [bind].
        destruct (HS _ _ _ _ k (nth k rt' 0%nat) n1 Hs) as (s' & E & Hs'); try lia; [apply perm_lt; auto; lia|].
        exists s'. split; auto. eapply holds_ext; [exact Hs'|]. intros i j Hi' Hj'. unfold put2. cbn beta. rewrite Z1. bcase; subst; auto; congruence. }
    destruct R as (P & -> & HPm). cbn [bind post]. exists l', u', rt'. split; [exact HL'|]. split; [exact HU'|].
    split; [eapply holds_ext; [exact HPm|]; intros i j Hi' Hj'; cbn beta; bcase; auto|].
    split; [exact Hex|]. split; [lia|]. split; [exact HP|]. split; [exact Dl|]. split; [exact Du|].
    split; [intros i j Hi' Hj' Hle; apply Heq; auto|].
    apply (finv_bounds n a ld l' u' rt' cnt'); auto. intros i Hi'. unfold ld. now rewrite Nat.eqb_refl.
Qed.
End Main.

(** ** The two overloads *)
Lemma dense_f (A L0 P0 : DenseI NumF64) n a l0 p0 : (0 < n)%nat -> MatI.holds A n n a -> MatI.holds L0 n n l0 -> MatI.holds P0 n n p0 ->
  doubles2 n n a -> doubles2 n n l0 -> post (doolittle_dense A L0 P0) (lu_float n a l0 p0) (fun e => e = Singular).
Proof.
  intros Hn HA HL HP Da Dl. unfold doolittle_dense.
  rewrite (holds_rows _ _ _ _ HA), (holds_cols _ _ _ _ HA), (holds_rows _ _ _ _ HL), (holds_cols _ _ _ _ HL), (holds_rows _ _ _ _ HP), (holds_cols _ _ _ _ HP).
  rewrite Nat.eqb_refl. cbn [negb orb].
  apply (main_f (fun x => x) dense_sets); auto; [tauto|]. exists P0. auto.
Qed.
Lemma sparse_f (A : SparseI NumF64) n a : (0 < n)%nat -> MatI.holds A n n a -> doubles2 n n a ->
  post (doolittle_sparse A) (lu_float n a (fun _ _ => n0) (fun _ _ => n0)) (fun e => e = Singular).
Proof.
  intros Hn HA Da. unfold doolittle_sparse. rewrite (holds_rows _ _ _ _ HA), (holds_cols _ _ _ _ HA). rewrite Nat.eqb_refl. cbn [negb].
  assert (Z : exists m, @mi_new NumF64 (SparseI NumF64) n n = Ok m /\ MatI.holds m n n (fun _ _ => n0)).
  { destruct (SparseProofs.srep_new (N := NumF64) n n Hn Hn) as (m & E & _). exists m. split; [exact E|].
    apply s_holds. split; [eapply b_new; eauto|]. now apply (new_inv NumF64_zero_laws) in E. }
  destruct Z as (Zm & E & HZm). rewrite E. cbn [bind].
  apply (main_f norm0 sparse_sets norm0_real norm0_double norm0_finite); auto.
  - intros i j _ _. reflexivity.
  - exists Zm. auto.
Qed.
