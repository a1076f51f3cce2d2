(** Rounding errors of cholesky on doubles, for both storages. *)
From Coq Require Import ZArith Reals List Arith Bool SpecFloat Lia Lra.
From Flocq Require Import Core Relative BinarySingleNaN.
From Verif Require Import Base BaseProofs Num NumInst Spec SpecProofs SparseModel DenseModel MatI MatIProofs MatOps DenseSpec LUModel LUProofs CholProofs FloatSpec FloatLUSpec FloatCholSpec F64Flocq FloatProofs FloatResult FloatSolve FloatLU FloatLUSolve FloatGrowth FloatDet.
Import ListNotations.
Local Open Scope R_scope.

(** ** Sums of squares: never negative, never -infinity *)
Definition nonneg (v : NumF64) : Prop := v = S754_nan \/ v = S754_infinity false \/ (finite v /\ 0 <= real v).
Lemma B2SF_eq (b c : B64) : B2SF b = B2SF c -> b = c.
Proof. apply B2SF_inj. Qed.
Lemma sign_real (b : B64) : is_finite b = true -> 0 < B2R b -> Bsign b = false.
Proof.
  destruct b as [s|s| |s m e H]; cbn; try discriminate; intros _ L; try lra. destruct s; [|reflexivity]. exfalso.
  assert (F2R (Float radix2 (cond_Zopp true (Zpos m)) e) <= 0) by (apply F2R_le_0; cbn; lia). lra.
Qed.
Lemma nonneg_add x y : double x -> double y -> nonneg x -> nonneg y -> nonneg (x + y)%num.
Proof.
  intros Dx Dy [->|[->|[Fx Px]]] Hy.
  - left. reflexivity.
  - destruct Hy as [->|[->|[Fy Py]]]; [left; reflexivity|right; left; reflexivity|]. right; left.
    destruct y as [s|s| |s m e]; try contradiction; reflexivity.
  - destruct Hy as [->|[->|[Fy Py]]].
    + left. destruct x as [s|s| |s m e]; reflexivity.
    + right; left. destruct x as [s|s| |s m e]; try contradiction; reflexivity.
    + right. revert Fx Fy Px Py. rewrite <- (toB_SF x Dx), <- (toB_SF y Dy). cbn [nadd NumF64]. rewrite add_equiv. rewrite !finite_B, !real_B.
      intros Fx Fy Px Py. pose proof (Bplus_correct prec64 emax64 Hprec64 Hmax64 mode_NE _ _ Fx Fy) as C.
      destruct Rlt_bool eqn:E.
      * right. destruct C as (C1 & C2 & _). split; [exact C2|]. rewrite C1.
        apply round_ge_generic; [apply FLT_exp_valid; reflexivity|apply valid_rnd_N|apply generic_format_0|lra].
      * left. destruct C as (C1 & C2). rewrite C1.
        destruct (Rle_lt_or_eq_dec _ _ Px) as [Px'|Px'].
        -- rewrite (sign_real _ Fx Px'). reflexivity.
        -- destruct (Rle_lt_or_eq_dec _ _ Py) as [Py'|Py'].
           ++ rewrite C2. rewrite (sign_real _ Fy Py'). reflexivity.
           ++ exfalso. rewrite <- Px', <- Py', Rplus_0_r, round_0, Rabs_R0 in E by apply valid_rnd_N.
              rewrite Rlt_bool_true in E; [discriminate|apply bpow_gt_0].
Qed.
Lemma nonneg_sqr x : double x -> nonneg (x * x)%num.
Proof.
  intros Dx. destruct x as [s|s| |s m e] eqn:Ex.
  - right; right. cbn. split; [exact I|lra].
  - right; left. cbn. destruct s; reflexivity.
  - left. reflexivity.
  - rewrite <- Ex in *. assert (Fx : finite x) by (rewrite Ex; exact I). clear Ex s m e. revert Fx.
    rewrite <- (toB_SF x Dx). cbn [nmul NumF64]. rewrite mul_equiv. rewrite !finite_B. intros Fx.
    pose proof (Bmult_correct prec64 emax64 Hprec64 Hmax64 mode_NE (toB x Dx) (toB x Dx)) as C.
    right. destruct Rlt_bool eqn:E.
    + right. destruct C as (C1 & C2 & _). split; [apply (proj2 (finite_B _)); rewrite C2, Fx; reflexivity|]. rewrite real_B, C1.
      apply round_ge_generic; [apply FLT_exp_valid; reflexivity|apply valid_rnd_N|apply generic_format_0|]. nra.
    + left. rewrite C. rewrite xorb_nilpotent. reflexivity.
Qed.
Lemma sqr_sum_nonneg n (x : nat -> NumF64) : (forall i, (i < n)%nat -> double (x i)) -> nonneg (bigsum n (fun i => x i * x i)%num) /\ double (bigsum n (fun i => x i * x i)%num).
Proof.
  induction n as [|n IH]; intros H.
  - split; [|reflexivity]. right; right. cbn. split; [exact I|lra].
  - destruct IH as (I1 & I2); [intros; apply H; lia|]. cbn [bigsum].
    assert (D : double (x n)) by (apply H; lia). split.
    + apply nonneg_add; [exact I2|now apply mul_double|exact I1|now apply nonneg_sqr].
    + apply add_double; [exact I2|now apply mul_double].
Qed.
Lemma fin_bound (x : NumF64) : double x -> Rabs (real x) < bpow radix2 1024.
Proof. apply real_lt_max. Qed.
(** The pivot a - s is accepted only if it is finite. *)
Lemma pivot_fin a s : double a -> double s -> finite a -> nonneg s -> nleb n0 (a - s)%num = true -> finite (a - s)%num /\ finite s.
Proof.
  intros Da Ds Fa Hs L. destruct Hs as [->|[->|[Fs Ps]]].
  - exfalso. destruct a as [t|t| |t m e]; discriminate L.
  - exfalso. destruct a as [t|t| |t m e]; try contradiction; cbn in L; destruct t; discriminate L.
  - split; [|exact Fs]. revert Fa Fs Ps L. rewrite <- (toB_SF a Da), <- (toB_SF s Ds). cbn [nsub NumF64]. rewrite sub_equiv. rewrite !finite_B, !real_B.
    intros Fa Fs Ps L. pose proof (Bminus_correct prec64 emax64 Hprec64 Hmax64 mode_NE _ _ Fa Fs) as C.
    destruct Rlt_bool eqn:E; [apply C|]. exfalso. destruct C as (C1 & C2). rewrite C1 in L.
    destruct (Bsign (toB a Da)) eqn:Sa; [discriminate L|].
    destruct (Rle_lt_or_eq_dec _ _ Ps) as [P|P].
    + rewrite (sign_real _ Fs P) in C2. discriminate C2.
    + assert (A0 : B2R (toB a Da) - B2R (toB s Ds) = B2R (toB a Da)) by lra. rewrite A0 in E.
      rewrite round_generic in E; [|apply valid_rnd_N|apply (generic_format_B2R prec64 emax64)].
      rewrite Rlt_bool_true in E; [discriminate|apply (abs_B2R_lt_emax prec64 emax64)].
Qed.
Lemma sqrt_fin r : double r -> finite r -> 0 <= real r -> finite (nsqrt r).
Proof.
  intros D. rewrite <- (toB_SF r D). cbn [nsqrt NumF64]. rewrite sqrt_equiv, !finite_B, real_B. intros F P.
  destruct (Bsqrt_correct prec64 emax64 Hprec64 Hmax64 mode_NE (toB r D)) as (_ & C & _). rewrite C.
  destruct (toB r D) as [s|s| |s m e H]; try discriminate; try reflexivity. destruct s; [|reflexivity]. exfalso. cbn in P.
  assert (F2R (Float radix2 (Zneg m) e) < 0) by (apply F2R_lt_0; cbn; lia). lra.
Qed.

(** ** The diagonal entry r / sqrt r *)
Lemma diag_value r : double r -> finite r -> nleb n0 r = true -> let v := (r / nsqrt r)%num in double v /\
  ((real r = 0 /\ v = S754_nan) \/ (0 < real r /\ finite v /\ 0 < real v /\ Rabs (real r - real v * real v) <= ((1 + u64) ^ 6 - 1) * (real v * real v))).
Proof.
  intros D F L v. assert (P : 0 <= real r). { apply (leb_real n0 r) in L; [exact L|reflexivity|exact D|exact I|exact F]. }
  assert (Dq : double (nsqrt r)) by (apply sqrt_double; exact D).
  assert (Dv : double v) by (apply div_double; assumption). split; [exact Dv|].
  assert (Fq : finite (nsqrt r)) by (apply sqrt_fin; assumption).
  destruct (Rle_lt_or_eq_dec _ _ P) as [Pr|Pr].
  2: { left. split; [auto|]. unfold v. destruct r as [s|s| |s m e]; try contradiction; [reflexivity|]. exfalso.
       rewrite real_SF2R in Pr. cbn [SF2R] in Pr. symmetry in Pr. apply eq_0_F2R in Pr. destruct s; discriminate Pr. }
  right. split; [exact Pr|]. destruct (sqrt_real r D Fq) as (_ & _ & Rq). set (q := nsqrt r) in *.
  assert (Pp : Prec_gt_0 53) by reflexivity. pose proof u64_pos as Hu. assert (Hu2 : u64 <= / 16).
  { rewrite u64_b. replace (/ 16) with (bpow radix2 (-4)) by (cbn; lra). apply bpow_le. lia. }
  set (s := R_sqrt.sqrt (real r)) in *.
  assert (Hs : s * s = real r) by (apply R_sqrt.sqrt_sqrt; lra).
  assert (Hr : bpow radix2 (-1074) <= real r).
  { apply generic_format_ge_bpow with (fexp := fexp64); [intros e; unfold FLT_exp; lia|exact Pr|now apply real_format]. }
  assert (Hr2 : real r <= bpow radix2 1024).
  { pose proof (real_lt_max r D) as X. rewrite Rabs_pos_eq in X by lra. lra. }
  assert (Ps : 0 < s) by (apply R_sqrt.sqrt_lt_R0; exact Pr).
  assert (S1 : bpow radix2 (-537) <= s).
  { apply Rnot_lt_le. intros X. assert (s * s < bpow radix2 (-537) * bpow radix2 (-537)) by (pose proof (bpow_gt_0 radix2 (-537)); nra).
    rewrite <- bpow_plus in H. change (-537 + -537)%Z with (-1074)%Z in H. lra. }
  assert (S2 : s <= bpow radix2 512).
  { apply Rnot_lt_le. intros X. assert (bpow radix2 512 * bpow radix2 512 < s * s) by (pose proof (bpow_gt_0 radix2 512); nra).
    rewrite <- bpow_plus in H. change (512 + 512)%Z with 1024%Z in H. lra. }
  assert (E1 : Rabs (real q - s) <= u64 * s).
  { rewrite Rq. pose proof (relative_error_N_FLT radix2 (-1074) 53 Pp (fun x => negb (Z.even x)) s) as E. rewrite <- u64_bpow in E.
    rewrite (Rabs_pos_eq s) in E by lra. apply E. apply Rle_trans with (2 := S1). apply bpow_le. lia. }
  apply Rabs_le_inv in E1. assert (Pq : 0 < real q) by nra.
  assert (X1 : real r / real q <= 2 * s).
  { apply Rmult_le_reg_r with (real q); [exact Pq|]. unfold Rdiv. rewrite Rmult_assoc, Rinv_l, Rmult_1_r by lra. rewrite <- Hs. nra. }
  assert (X2 : bpow radix2 (-538) <= real r / real q).
  { apply Rle_trans with (s / 2).
    - change (-538)%Z with (-537 + -1)%Z. rewrite bpow_plus. change (bpow radix2 (-1)) with (/ 2). lra.
    - apply Rmult_le_reg_r with (real q); [exact Pq|]. unfold Rdiv at 2. rewrite Rmult_assoc, Rinv_l, Rmult_1_r by lra. rewrite <- Hs. nra. }
  assert (Fv : finite v).
  { apply div_finite; auto; [lra|]. eapply Rle_lt_trans; [apply (rnd_le_bpow _ 513); [lia|]|apply bpow_lt; lia].
    rewrite Rabs_pos_eq by (pose proof (bpow_gt_0 radix2 (-538)); lra). change 513%Z with (1 + 512)%Z. rewrite bpow_plus. change (bpow radix2 1) with 2. lra. }
  assert (E2 : Rabs (real v - real r / real q) <= u64 * (real r / real q)).
  { unfold v. rewrite (div_real r q D Dq Fq Fv). pose proof (relative_error_N_FLT radix2 (-1074) 53 Pp (fun x => negb (Z.even x)) (real r / real q)) as E. rewrite <- u64_bpow in E.
    rewrite (Rabs_pos_eq (real r / real q)) in E by (pose proof (bpow_gt_0 radix2 (-538)); lra). apply E. apply Rle_trans with (2 := X2). apply bpow_le. lia. }
  apply Rabs_le_inv in E2. split; [exact Fv|].
  assert (P0 : 0 < real r / real q) by (pose proof (bpow_gt_0 radix2 (-538)); lra).
  assert (Pv : 0 < real v) by nra. split; [exact Pv|].
  assert (Y1 : real v * real q <= real r * (1 + u64)).
  { replace (real r * (1 + u64)) with ((real r / real q + u64 * (real r / real q)) * real q) by (field; lra). apply Rmult_le_compat_r; lra. }
  assert (Y2 : real r * (1 - u64) <= real v * real q).
  { replace (real r * (1 - u64)) with ((real r / real q - u64 * (real r / real q)) * real q) by (field; lra). apply Rmult_le_compat_r; lra. }
  destruct E1 as (E1a & E1b). clear E2 X1 X2 P0 S1 S2 Hr Hr2 Rq P.
  rewrite <- Hs in *. revert E1a E1b Y1 Y2 Ps Pq Pv. generalize (real v) as w, (real q) as p. clear - Hu Hu2. generalize dependent u64. intros u Hu Hu2 w p A B C E Ps Pp Pw.
  assert (H1 : s * (1 - u) <= w * (1 + u)).
  { apply Rmult_le_reg_r with s; [exact Ps|]. apply Rle_trans with (w * p); [lra|]. rewrite Rmult_assoc. apply Rmult_le_compat_l; lra. }
  assert (H2 : w * (1 - u) <= s * (1 + u)).
  { apply Rmult_le_reg_r with s; [exact Ps|]. apply Rle_trans with (w * p); [|lra]. rewrite Rmult_assoc. apply Rmult_le_compat_l; lra. }
  assert (K1 : s <= w * (1 + u) ^ 3).
  { apply Rmult_le_reg_r with (1 - u); [lra|]. apply Rle_trans with (1 := H1). cbn [pow].
    replace (w * ((1 + u) * ((1 + u) * ((1 + u) * 1))) * (1 - u)) with (w * (1 + u) * (1 + u * (1 - u - u * u))) by ring.
    rewrite <- (Rmult_1_r (w * (1 + u))) at 1. apply Rmult_le_compat_l; nra. }
  assert (K2 : w * (1 - 2 * u) <= s).
  { apply Rmult_le_reg_r with (1 + u); [lra|]. apply Rle_trans with (2 := H2). rewrite Rmult_assoc. apply Rmult_le_compat_l; nra. }
  assert (U6 : 1 + 6 * u <= (1 + u) ^ 6) by (cbn [pow]; nra).
  assert (Q1 : s * s <= (w * w) * (1 + u) ^ 6).
  { replace ((w * w) * (1 + u) ^ 6) with ((w * (1 + u) ^ 3) * (w * (1 + u) ^ 3)) by ring. apply Rmult_le_compat; lra. }
  assert (Q2 : (w * w) * (1 - 6 * u) <= s * s).
  { apply Rle_trans with ((w * (1 - 2 * u)) * (w * (1 - 2 * u))); [|apply Rmult_le_compat; nra]. nra. }
  apply Rabs_le. assert (0 < w * w) by nra. split; nra.
Qed.

(** ** Error of one entry *)
Lemma pow_le_u m k : (m <= k)%nat -> (1 + u64) ^ m <= (1 + u64) ^ k.
Proof. intros H. apply Rle_pow; [pose proof u64_pos; lra|exact H]. Qed.
Lemma dot_le i n q : (i <= n)%nat -> 0 <= q -> dot_bound i q <= ((1 + u64) ^ (n + 7) - 1) * q + INR (n + 7) * (1 + u64) ^ (n + 7) * eta64.
Proof.
  intros H Hq. unfold dot_bound. pose proof (pow_le_u i (n + 7) ltac:(lia)) as P. pose proof (pow_ge_1 i). pose proof eta64_pos.
  assert (H' : (i <= n + 7)%nat) by lia. apply le_INR in H'. pose proof (pos_INR i). apply Rplus_le_compat.
  - apply Rmult_le_compat_r; lra.
  - apply Rmult_le_compat_r; [lra|]. apply Rmult_le_compat; lra.
Qed.
Lemma diag_error i n a s p q r v : (i <= n)%nat -> 0 <= q -> Rabs (s - p) <= dot_bound i q -> Rabs (a - s - r) <= u64 * Rabs r ->
  Rabs (r - v * v) <= ((1 + u64) ^ 6 - 1) * (v * v) -> Rabs (a - (p + v * v)) <= row_bound (n + 7) (q + Rabs (v * v)) v.
Proof.
  intros Hi Hq H1 H2 H3. pose proof (dot_le i n q Hi Hq) as H4. unfold row_bound. pose proof u64_pos as Hu. pose proof eta64_pos as He.
  pose proof (pow_le_u 7 (n + 7) ltac:(lia)) as P7. pose proof (pow_ge_1 (n + 7)) as P1. set (w := (1 + u64) ^ (n + 7)) in *.
  assert (Vp : 0 <= v * v) by nra. rewrite (Rabs_pos_eq (v * v)) by exact Vp. set (t := v * v) in *.
  assert (R1 : Rabs r <= (1 + u64) ^ 6 * t).
  { replace r with ((r - t) + t) by ring. eapply Rle_trans; [apply Rabs_triang|]. rewrite (Rabs_pos_eq t) by exact Vp. lra. }
  replace (a - (p + t)) with ((s - p) + (a - s - r) + (r - t)) by ring.
  eapply Rle_trans; [apply Rabs_triang|]. eapply Rle_trans; [apply Rplus_le_compat_r, Rabs_triang|].
  assert (X : u64 * Rabs r + ((1 + u64) ^ 6 - 1) * t <= (w - 1) * t).
  { apply Rle_trans with (((1 + u64) ^ 7 - 1) * t); [|apply Rmult_le_compat_r; lra].
    replace ((1 + u64) ^ 7) with ((1 + u64) * (1 + u64) ^ 6) by (cbn [pow]; ring). nra. }
  pose proof (Rabs_pos v). assert (0 <= Rabs v * w * eta64) by (apply Rmult_le_pos; [apply Rmult_le_pos; lra|lra]).
  replace ((w - 1) * (q + t) + (INR (n + 7) + Rabs v) * w * eta64) with (((w - 1) * q + INR (n + 7) * w * eta64) + (w - 1) * t + Rabs v * w * eta64) by ring. lra.
Qed.
Lemma off_error i n a s p q d w v : (i <= n)%nat -> 0 <= q -> w <> 0 -> Rabs (s - p) <= dot_bound i q -> Rabs (a - s - d) <= u64 * Rabs d ->
  Rabs (d / w - v) <= u64 * Rabs v + eta64 -> Rabs (a - (p + v * w)) <= row_bound (n + 7) (q + Rabs (v * w)) w.
Proof.
  intros Hi Hq Hw H1 H2 H3. pose proof (dot_le i n q Hi Hq) as H4. unfold row_bound. pose proof u64_pos as Hu. pose proof eta64_pos as He.
  pose proof (pow_le_u 2 (n + 7) ltac:(lia)) as P2. pose proof (pow_le_u 1 (n + 7) ltac:(lia)) as P1. set (o := (1 + u64) ^ (n + 7)) in *.
  assert (X : Rabs (d - v * w) <= u64 * Rabs (v * w) + eta64 * Rabs w).
  { replace (d - v * w) with ((d / w - v) * w) by (field; exact Hw). rewrite !Rabs_mult. pose proof (Rabs_pos w).
    apply Rle_trans with ((u64 * Rabs v + eta64) * Rabs w); [apply Rmult_le_compat_r; lra|apply Req_le; ring]. }
  set (t := v * w) in *. pose proof (Rabs_pos t) as Ht. pose proof (Rabs_pos w) as Hw'.
  assert (R1 : Rabs d <= (1 + u64) * Rabs t + eta64 * Rabs w).
  { replace d with ((d - t) + t) by ring. eapply Rle_trans; [apply Rabs_triang|]. lra. }
  replace (a - (p + t)) with ((s - p) + (a - s - d) + (d - t)) by ring.
  eapply Rle_trans; [apply Rabs_triang|]. eapply Rle_trans; [apply Rplus_le_compat_r, Rabs_triang|].
  assert (Y1 : ((1 + u64) ^ 2 - 1) * Rabs t <= (o - 1) * Rabs t) by (apply Rmult_le_compat_r; lra).
  assert (Y2 : (1 + u64) ^ 1 * (eta64 * Rabs w) <= o * (eta64 * Rabs w)) by (apply Rmult_le_compat_r; [apply Rmult_le_pos; lra|exact P1]).
  cbn [pow] in Y1, Y2.
  replace ((o - 1) * (q + Rabs t) + (INR (n + 7) + Rabs w) * o * eta64) with (((o - 1) * q + INR (n + 7) * o * eta64) + (o - 1) * Rabs t + o * (eta64 * Rabs w)) by ring. nra.
Qed.

(** ** The loops *)
Section Loops.
Context {I : MatI NumF64} (nz : NumF64 -> NumF64) (HS : SetLaws (I := I) nz).
(** Stored values read back unchanged, up to the sign of a zero. *)
Hypothesis Zs : forall x, nz x = x \/ exists s, x = S754_zero s /\ nz x = S754_zero false.
Variables (n : nat) (a : nat -> nat -> NumF64).
Hypothesis Da : doubles2 n n a.
Hypothesis Fa : lower_finite n a.

Lemma z_real x : real (nz x) = real x.
Proof. destruct (Zs x) as [->|(s & -> & ->)]; reflexivity. Qed.
Lemma z_double x : double x -> double (nz x).
Proof. destruct (Zs x) as [->|(s & -> & ->)]; [auto|reflexivity]. Qed.
Lemma z_finite x : finite (nz x) <-> finite x.
Proof. destruct (Zs x) as [->|(s & -> & ->)]; cbn; tauto. Qed.

Section Column.
Variables (j : nat) (l : nat -> nat -> NumF64).
Hypothesis Hj : (j < n)%nat.
Definition c_s : NumF64 := bigsum j (fun t => l j t * l j t)%num.
Definition c_r : NumF64 := (a j j - c_s)%num.
Definition c_q : NumF64 := nz (nsqrt c_r).
Definition c_d : NumF64 := nz (c_r / c_q)%num.
Definition c_si (i : nat) : NumF64 := bigsum i (fun t => l i t * (if (t =? j)%nat then c_d else l j t))%num.
Definition c_v (i : nat) : NumF64 := if (i =? j)%nat then c_d else nz ((a i j - c_si i) / c_d)%num.
Definition c_l1 : nat -> nat -> NumF64 := put2 l j j c_q.
Definition c_t (h i c : nat) : NumF64 := if ((c =? j) && (j <=? i) && (i <? h))%nat then c_v i else c_l1 i c.
Definition c_l2 (i c : nat) : NumF64 := if ((c =? j) && (j <=? i))%nat then c_v i else l i c.

Lemma inner_f (m L : I) : MatI.holds m n n a -> MatI.holds L n n c_l1 ->
  returns (for_ j n (fun i L =>
          let* s := chol_sum L i j i in
          let* mij := mi_at m i j in
          let* d := mi_at L j j in
          mi_set L i j ((mij - s) / d)%num) L)
    (fun L' => MatI.holds L' n n c_l2).
Proof.
  intros Hm HL. eapply returns_mono; [apply (for_returns (fun h L' => MatI.holds L' n n (c_t h))); try lia| ].
  - eapply holds_ext; [exact HL|]. intros i k Hi Hk. unfold c_t. bcase; auto.
  - intros i L' Hi HL'. rewrite (sum_ok L' n _ i j i HL') by lia. cbn [bind].
    rewrite (holds_at _ _ _ _ _ _ Hm) by lia. cbn [bind]. rewrite (holds_at _ _ _ _ _ _ HL') by lia. cbn [bind].
    match goal with |- returns (mi_set L' i j ?v) _ => destruct (HS L' n n _ i j v HL') as (L2 & E & H2); [lia|lia|] end.
    exists L2. split; [exact E|]. eapply holds_ext; [exact H2|]. intros i' k' Hi' Hk'. unfold put2 at 1. cbn beta.
    destruct (Nat.eq_dec i j) as [->|Hij].
    + rewrite (bigsum_ext j _ (fun t => l j t * l j t)%num).
      2: { intros t Ht. unfold c_t, c_l1, put2. bcase. reflexivity. }
      replace (c_t j j j) with c_q by (unfold c_t, c_l1, put2; bcase; reflexivity).
      unfold c_t, c_v. fold c_s c_r. fold c_d. bcase; subst; reflexivity.
    + rewrite (bigsum_ext i _ (fun t => l i t * (if (t =? j)%nat then c_d else l j t))%num).
      2: { intros t Ht. unfold c_t, c_v, c_l1, put2. bcase; subst; reflexivity. }
      replace (c_t i j j) with c_d by (unfold c_t, c_v, c_l1, put2; bcase; reflexivity).
      fold (c_si i). unfold c_t, c_v. bcase; subst; reflexivity.
  - intros L' HL'. eapply holds_ext; [exact HL'|]. intros i k Hi Hk. unfold c_t, c_l1, c_l2, put2. bcase; subst; auto.
Qed.

Record inv_c (k : nat) (l : nat -> nat -> NumF64) : Prop := {
  ic_d : doubles2 n n l;
  ic_z : forall i c, (i < n)%nat -> (c < n)%nat -> (i < c \/ k <= c)%nat -> l i c = n0;
  ic_p : forall c, (c < k)%nat -> (finite (l c c) /\ 0 < real (l c c)) \/ l c c = S754_nan;
  ic_b : forall c, (c < k)%nat -> chol_entry n a l c c;
  ic_o : forall i c, (c < k)%nat -> (c < i < n)%nat -> finite (l i c) -> finite (l c c) /\ chol_entry n a l i c;
  ic_f : forall i c, (i < k)%nat -> (c < i)%nat -> finite (l i c) }.

Lemma entry_ext l1 l2 i c : (forall t, (t <= c)%nat -> l1 i t = l2 i t /\ l1 c t = l2 c t) -> chol_entry n a l1 i c -> chol_entry n a l2 i c.
Proof.
  intros H. unfold chol_entry, chol_terms. rewrite (proj2 (H c (le_n c))).
  rewrite (rsum_ext (S c) (fun t => real (l1 i t) * real (l1 c t)) (fun t => real (l2 i t) * real (l2 c t))) by (intros t Ht; destruct (H t ltac:(lia)) as [-> ->]; reflexivity).
  rewrite (rsum_ext (S c) (fun t => Rabs (real (l1 i t) * real (l1 c t))) (fun t => Rabs (real (l2 i t) * real (l2 c t)))) by (intros t Ht; destruct (H t ltac:(lia)) as [-> ->]; reflexivity).
  auto.
Qed.
Lemma terms_pos m (x y : nat -> NumF64) : 0 <= rsum m (fun t => Rabs (real (x t) * real (y t))).
Proof. induction m as [|m IH]; cbn [rsum]; [lra|]. pose proof (Rabs_pos (real (x m) * real (y m))). lra. Qed.

Hypothesis HI : inv_c j l.
Hypothesis HP : nleb n0 c_r = true.
Lemma r_facts : double c_s /\ double c_r /\ finite c_r /\ finite c_s /\ (forall t, (t < j)%nat -> finite (l j t)) /\
  Rabs (real c_s - rsum j (fun t => real (l j t) * real (l j t))) <= dot_bound j (rsum j (fun t => Rabs (real (l j t) * real (l j t)))) /\
  Rabs (real (a j j) - real c_s - real c_r) <= u64 * Rabs (real c_r).
Proof.
  assert (Dl : forall t, (t < j)%nat -> double (l j t)) by (intros t Ht; apply (ic_d _ _ HI); lia).
  destruct (sqr_sum_nonneg j (l j) Dl) as (Np & Ds). fold c_s in Np, Ds.
  assert (Daj : double (a j j)) by (apply Da; auto).
  assert (Dr : double c_r) by (apply sub_double; assumption).
  assert (Faj : finite (a j j)) by (apply Fa; lia).
  destruct (pivot_fin (a j j) c_s Daj Ds Faj Np HP) as (Fr & Fs). fold c_r in Fr.
  destruct (err_dot j (l j) (l j)) as (E1 & E2); [auto|exact Fs|].
  repeat split; try assumption.
  - intros t Ht. exact (proj1 (E1 t Ht)).
  - apply sub_back; assumption.
Qed.
Lemma d_facts : double c_d /\ ((finite c_d /\ 0 < real c_d) \/ c_d = S754_nan) /\
  Rabs (real c_r - real c_d * real c_d) <= ((1 + u64) ^ 6 - 1) * (real c_d * real c_d).
Proof.
  destruct r_facts as (Ds & Dr & Fr & _ & _ & _ & _).
  destruct (diag_value c_r Dr Fr HP) as (Dv & [(R0 & V0)|(Rp & Fv & Pv & B)]).
  - assert (E : exists s, c_r = S754_zero s).
    { clear - Fr R0. destruct c_r as [s|s| |s m e]; try contradiction; [eauto|]. exfalso.
      rewrite real_SF2R in R0. cbn [SF2R] in R0. apply eq_0_F2R in R0. destruct s; discriminate R0. }
    destruct E as (s & E). assert (Q : exists s', c_q = S754_zero s').
    { unfold c_q. rewrite E. cbn. destruct (Zs (S754_zero s)) as [Z|(s1 & _ & Z)]; rewrite Z; eauto. }
    destruct Q as (s' & Q). assert (N : c_d = S754_nan).
    { unfold c_d. rewrite E, Q. cbn. destruct (Zs S754_nan) as [Z|(s1 & Z & _)]; [exact Z|discriminate Z]. }
    rewrite N. split; [reflexivity|]. split; [auto|]. rewrite R0. change (real S754_nan) with 0. rewrite Rmult_0_l, Rminus_0_r, Rabs_R0, Rmult_0_r. lra.
  - assert (Q : c_q = nsqrt c_r).
    { unfold c_q. destruct (Zs (nsqrt c_r)) as [Z|(s1 & Z & _)]; [exact Z|]. exfalso.
      rewrite Z in Fv. clear - Fv. destruct c_r as [s|s| |s m e]; exact Fv. }
    unfold c_d. rewrite Q. split; [now apply z_double|]. split; [left|]; rewrite z_real; auto. split; [now apply z_finite|exact Pv].
Qed.
Lemma v_double i : (j <= i < n)%nat -> double (c_v i).
Proof.
  intros Hi. destruct d_facts as (Dd & _). unfold c_v. destruct (Nat.eqb_spec i j) as [E|E]; [exact Dd|].
  apply z_double. apply div_double; [|exact Dd]. apply sub_double; [apply Da; lia|]. unfold c_si.
  assert (X : forall m, (m <= i)%nat -> double (bigsum m (fun t => l i t * (if (t =? j)%nat then c_d else l j t))%num)).
  { induction m as [|m IH]; intros Hm; [reflexivity|]. cbn [bigsum]. apply add_double; [apply IH; lia|].
    apply mul_double; [apply (ic_d _ _ HI); lia|]. destruct (m =? j)%nat; [exact Dd|apply (ic_d _ _ HI); lia]. }
  apply X. lia.
Qed.
Lemma step_inv : inv_c (S j) c_l2.
Proof.
  destruct r_facts as (Ds & Dr & Fr & Fs & Fl & Es & Er). destruct d_facts as (Dd & Pd & Ed).
  assert (Old : forall i c, (c < j)%nat -> c_l2 i c = l i c) by (intros i c Hc; unfold c_l2; bcase; reflexivity).
  assert (Newj : forall i, (j <= i)%nat -> c_l2 i j = c_v i) by (intros i Hi; unfold c_l2; bcase; reflexivity).
  assert (Vj : c_v j = c_d) by (unfold c_v; now rewrite Nat.eqb_refl).
  split.
  - intros i c Hi Hc. unfold c_l2. destruct ((c =? j) && (j <=? i))%nat eqn:E; [|now apply (ic_d _ _ HI)].
    apply andb_prop in E. destruct E as (_ & E). apply Nat.leb_le in E. apply v_double. lia.
  - intros i c Hi Hc H. unfold c_l2. bcase; apply (ic_z _ _ HI); lia.
  - intros c Hc. destruct (Nat.eq_dec c j) as [->|Hne].
    + rewrite Newj, Vj by lia. exact Pd.
    + rewrite Old by lia. apply (ic_p _ _ HI). lia.
  - intros c Hc. destruct (Nat.eq_dec c j) as [->|Hne].
    + unfold chol_entry, chol_terms. cbn [rsum]. rewrite Newj, Vj by lia.
      rewrite (rsum_ext j (fun t => real (c_l2 j t) * real (c_l2 j t)) (fun t => real (l j t) * real (l j t))) by (intros t Ht; now rewrite Old).
      rewrite (rsum_ext j (fun t => Rabs (real (c_l2 j t) * real (c_l2 j t))) (fun t => Rabs (real (l j t) * real (l j t)))) by (intros t Ht; now rewrite Old).
      eapply diag_error; [|apply terms_pos|exact Es|exact Er|exact Ed]. lia.
    + apply (entry_ext l); [|apply (ic_b _ _ HI); lia]. intros t Ht. rewrite !Old by lia. auto.
  - intros i c Hc Hi. destruct (Nat.eq_dec c j) as [->|Hne].
    2: { rewrite !Old by lia. intros F. destruct (ic_o _ _ HI i c ltac:(lia) Hi F) as (X1 & X2). split; [exact X1|].
         apply (entry_ext l); [|exact X2]. intros t Ht. rewrite !Old by lia. auto. }
    rewrite !Newj by lia. rewrite Vj. intros F. unfold c_v in F. destruct (Nat.eqb_spec i j); [lia|]. apply (proj1 (z_finite _)) in F.
    assert (Dx : double (a i j - c_si i)%num).
    { apply sub_double; [apply Da; lia|]. unfold c_si. clear F.
      assert (X : forall m, (m <= i)%nat -> double (bigsum m (fun t => l i t * (if (t =? j)%nat then c_d else l j t))%num)).
      { induction m as [|m IH]; intros Hm; [reflexivity|]. cbn [bigsum]. apply add_double; [apply IH; lia|].
        apply mul_double; [apply (ic_d _ _ HI); lia|]. destruct (m =? j)%nat; [exact Dd|apply (ic_d _ _ HI); lia]. }
      apply X. lia. }
    destruct (div_finite_args _ _ Dd F) as (Fx & _). destruct (sub_finite_args _ _ Fx) as (_ & Fsi).
    assert (Fd : finite c_d /\ 0 < real c_d).
    { destruct Pd as [Pd|Pd]; [exact Pd|]. exfalso. rewrite Pd in F. clear - F. destruct (a i j - c_si i)%num as [s|s| |s m e]; exact F. }
    destruct Fd as (Fd & Pd'). split; [exact Fd|].
    assert (Dsi : double (c_si i)).
    { unfold c_si. clear F Fx Fsi Dx.
      assert (X : forall m, (m <= i)%nat -> double (bigsum m (fun t => l i t * (if (t =? j)%nat then c_d else l j t))%num)).
      { induction m as [|m IH]; intros Hm; [reflexivity|]. cbn [bigsum]. apply add_double; [apply IH; lia|].
        apply mul_double; [apply (ic_d _ _ HI); lia|]. destruct (m =? j)%nat; [exact Dd|apply (ic_d _ _ HI); lia]. }
      apply X. lia. }
    destruct (err_dot i (l i) (fun t => if (t =? j)%nat then c_d else l j t)) as (_ & E).
    { intros t Ht. split; [apply (ic_d _ _ HI); lia|]. destruct (t =? j)%nat; [exact Dd|apply (ic_d _ _ HI); lia]. }
    { exact Fsi. }
    fold (c_si i) in E.
    assert (Cut : forall f : R -> R, f 0 = 0 -> rsum i (fun t => f (real (l i t) * real (if (t =? j)%nat then c_d else l j t))) = rsum j (fun t => f (real (l i t) * real (l j t)))).
    { intros f Hf. replace i with (j + (i - j))%nat at 1 by lia. rewrite rsum_cut.
      - apply rsum_ext. intros t Ht. destruct (Nat.eqb_spec t j); [lia|reflexivity].
      - intros t Ht. rewrite (ic_z _ _ HI i (j + t)) by lia. change (real Num.n0) with 0. rewrite Rmult_0_l. exact Hf. }
    rewrite (Cut (fun x => x)) in E by reflexivity. rewrite (Cut Rabs) in E by apply Rabs_R0.
    unfold chol_entry, chol_terms. cbn [rsum]. rewrite !Newj by lia. rewrite Vj.
    rewrite (rsum_ext j (fun t => real (c_l2 i t) * real (c_l2 j t)) (fun t => real (l i t) * real (l j t))) by (intros t Ht; now rewrite !Old).
    rewrite (rsum_ext j (fun t => Rabs (real (c_l2 i t) * real (c_l2 j t))) (fun t => Rabs (real (l i t) * real (l j t)))) by (intros t Ht; now rewrite !Old).
    eapply off_error; [|apply terms_pos|lra|exact E|apply sub_back; [apply Da; lia|exact Dsi|exact Fx]|]; [lia|].
    unfold c_v. destruct (Nat.eqb_spec i j); [lia|]. rewrite z_real. rewrite (div_real _ _ Dx Dd Fd F). apply rnd_back.
  - intros i c Hi Hc. destruct (Nat.eq_dec i j) as [->|Hne].
    + rewrite Old by lia. apply Fl. lia.
    + rewrite Old by lia. apply (ic_f _ _ HI); lia.
Qed.
End Column.

Theorem cholesky_f (m L0 : I) : MatI.holds m n n a -> MatI.holds L0 n n (fun _ _ => n0) ->
  post (cholesky m L0) (chol_float n a) (fun e => e = NotPositiveDefinite).
Proof.
  intros Hm H0. unfold cholesky.
  rewrite (holds_rows _ _ _ _ Hm), (holds_cols _ _ _ _ Hm), (holds_rows _ _ _ _ H0), (holds_cols _ _ _ _ H0), !Nat.eqb_refl. cbn [negb orb].
  eapply post_mono; [apply (for_post (fun j L => exists l, MatI.holds L n n l /\ inv_c j l) (fun e => e = NotPositiveDefinite)); try lia| |auto].
  - eexists. split; [exact H0|]. split; try (intros; lia); [intros i c _ _; reflexivity|reflexivity].
  - intros j L Hj (l & HLl & Hi). rewrite (sum_ok L n l j j j HLl) by lia. cbn [bind].
    rewrite (holds_at _ _ _ _ _ _ Hm) by lia. cbn [bind].
    fold (c_s j l). fold (c_r j l). unfold sqrt_allowed. destruct (nleb n0 (c_r j l)) eqn:Hle; cbn [negb]; [|reflexivity].
    destruct (HS L n n l j j (nsqrt (c_r j l)) HLl) as (L1 & -> & HL1); [lia|lia|]. cbn [bind].
    destruct (inner_f j l ltac:(lia) m L1 Hm HL1) as (L2 & -> & HL2). cbn [post].
    exists (c_l2 j l). split; [exact HL2|]. apply step_inv; [lia|exact Hi|exact Hle].
  - intros L (l & HL & Hi). exists l. split; [exact HL|]. split; [apply (ic_d _ _ Hi)|]. split; [intros; apply (ic_z _ _ Hi); lia|].
    split; [intros; apply (ic_f _ _ Hi); lia|]. split.
    + intros j Hj. destruct (ic_p _ _ Hi j Hj) as [X|X]; [left; exact X|].
      destruct (Nat.eq_dec (S j) n) as [E|E]; [right; auto|]. exfalso.
      destruct (ic_o _ _ Hi (S j) j Hj ltac:(lia) (ic_f _ _ Hi (S j) j ltac:(lia) ltac:(lia))) as (F & _). rewrite X in F. exact F.
    + intros i j Hij. destruct (Nat.eq_dec i j) as [->|E]; [apply (ic_b _ _ Hi); lia|].
      apply (ic_o _ _ Hi i j); [lia|lia|]. apply (ic_f _ _ Hi); lia.
Qed.
End Loops.

Lemma norm0_cases (x : NumF64) : norm0 x = x \/ exists s, x = S754_zero s /\ norm0 x = S754_zero false.
Proof. destruct x as [s|s| |s m e]; destruct s || idtac; cbn; eauto. Qed.
Theorem chol_dense_f (m L0 : DenseI NumF64) n a : MatI.holds m n n a -> MatI.holds L0 n n (fun _ _ => n0) -> doubles2 n n a -> lower_finite n a ->
  post (cholesky m L0) (chol_float n a) (fun e => e = NotPositiveDefinite).
Proof. intros Hm H0 Da Fa. exact (cholesky_f (fun x => x) dense_sets (fun x => or_introl eq_refl) n a Da Fa m L0 Hm H0). Qed.
Theorem chol_sparse_f (m L0 : SparseI NumF64) n a : MatI.holds m n n a -> MatI.holds L0 n n (fun _ _ => n0) -> doubles2 n n a -> lower_finite n a ->
  post (cholesky m L0) (chol_float n a) (fun e => e = NotPositiveDefinite).
Proof. intros Hm H0 Da Fa. exact (cholesky_f norm0 sparse_sets norm0_cases n a Da Fa m L0 Hm H0). Qed.
