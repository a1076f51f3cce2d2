(** The operations of [NumF64] are the correctly rounded real operations (through Flocq). *)
From Coq Require Import ZArith Reals List SpecFloat Lia Lra.
From Flocq Require Import Core BinarySingleNaN Relative Plus_error.
From Verif Require Import Num NumInst FloatSpec.
Local Open Scope R_scope.

#[local] Instance Hprec64 : Prec_gt_0 prec64 := eq_refl _.
#[local] Instance Hmax64 : Prec_lt_emax prec64 emax64 := eq_refl _.

Notation B64 := (binary_float prec64 emax64).
Notation fexp64 := (FLT_exp (-1074) 53).
Notation rnd := (round radix2 fexp64 ZnearestE).

Lemma rne_equiv s m l : round_nearest_even m l = choice_mode mode_NE s m l.
Proof. case l; [reflexivity|intro c]. case c; [ | reflexivity..]. now simpl; unfold Round.cond_incr; case Z.even. Qed.
Lemma round_aux_equiv sx mx ex lx :
  SpecFloat.binary_round_aux prec64 emax64 sx mx ex lx = binary_round_aux prec64 emax64 mode_NE sx mx ex lx.
Proof.
  unfold SpecFloat.binary_round_aux, binary_round_aux. set (mrse' := shr_fexp _ _ _ _ _).
  case mrse'; intros mrs' e'; cbn -[shr_fexp]. now rewrite (rne_equiv sx).
Qed.
Lemma round_equiv s m e : SpecFloat.binary_round prec64 emax64 s m e = binary_round prec64 emax64 mode_NE s m e.
Proof.
  unfold SpecFloat.binary_round, binary_round, shl_align_fexp. set (mez := shl_align _ _ _); case mez as [mz ez].
  apply round_aux_equiv.
Qed.
Lemma normalize_equiv m e szero :
  SpecFloat.binary_normalize prec64 emax64 m e szero = B2SF (binary_normalize prec64 emax64 Hprec64 Hmax64 mode_NE m e szero).
Proof.
  case m as [ | p | p]; [reflexivity|..]; simpl; rewrite B2SF_SF2B; apply round_equiv.
Qed.
Lemma mul_equiv (x y : B64) : SFmul prec64 emax64 (B2SF x) (B2SF y) = B2SF (Bmult mode_NE x y).
Proof.
  case x as [sx|sx| |sx mx ex Bx]; case y as [sy|sy| |sy my ey By]; [now trivial.. | ].
  simpl. rewrite B2SF_SF2B. apply round_aux_equiv.
Qed.
Lemma add_equiv (x y : B64) : SFadd prec64 emax64 (B2SF x) (B2SF y) = B2SF (Bplus mode_NE x y).
Proof.
  case x as [sx|sx| |sx mx ex Bx]; case y as [sy|sy| |sy my ey By];
  [now (trivial || simpl; case Bool.eqb).. | ].
  apply normalize_equiv.
Qed.
Lemma sub_equiv (x y : B64) : SFsub prec64 emax64 (B2SF x) (B2SF y) = B2SF (Bminus mode_NE x y).
Proof.
  case x as [sx|sx| |sx mx ex Bx]; case y as [sy|sy| |sy my ey By];
  [now (trivial || simpl; case Bool.eqb).. | ].
  simpl. unfold Zminus. rewrite <- cond_Zopp_negb. apply normalize_equiv.
Qed.
Lemma div_equiv (x y : B64) : SFdiv prec64 emax64 (B2SF x) (B2SF y) = B2SF (Bdiv mode_NE x y).
Proof.
  case x as [sx|sx| |sx mx ex Bx]; case y as [sy|sy| |sy my ey By];
  [now (trivial || simpl; case Bool.eqb).. | ].
  simpl. rewrite B2SF_SF2B. set (melz := SFdiv_core_binary _ _ _ _ _ _). case melz as [[mz ez] lz].
  apply round_aux_equiv.
Qed.
Lemma sqrt_equiv (x : B64) : SFsqrt prec64 emax64 (B2SF x) = B2SF (Bsqrt mode_NE x).
Proof.
  case x as [sx|sx| |sx mx ex Bx]; [now (trivial || case sx).. | ].
  simpl. case sx; [reflexivity|]. rewrite B2SF_SF2B.
  set (melz := SFsqrt_core_binary _ _ _ _). case melz as [[mz ez] lz]. apply round_aux_equiv.
Qed.

(** From the vocabulary to Flocq and back. *)
Lemma real_SF2R x : real x = SF2R radix2 x.
Proof.
  destruct x as [| | |s m e]; try reflexivity. unfold real, SF2R, F2R. cbn [Fnum Fexp].
  rewrite (bpow_powerRZ radix2). destruct s; reflexivity.
Qed.
Lemma finite_SF x : finite x <-> is_finite_SF x = true.
Proof. destruct x; simpl; intuition congruence. Qed.
Definition toB (x : NumF64) (H : double x) : B64 := SF2B x H.
Lemma toB_SF x H : B2SF (toB x H) = x.
Proof. apply B2SF_SF2B. Qed.
Lemma real_B (b : B64) : real (B2SF b) = B2R b.
Proof. now rewrite real_SF2R, SF2R_B2SF. Qed.
Lemma finite_B (b : B64) : finite (B2SF b) <-> is_finite b = true.
Proof. rewrite finite_SF. now rewrite is_finite_SF_B2SF. Qed.
Lemma double_B (b : B64) : double (B2SF b).
Proof. apply valid_binary_B2SF. Qed.
Lemma real_format x : double x -> generic_format radix2 fexp64 (real x).
Proof. intros H. rewrite <- (toB_SF x H), real_B. apply (generic_format_B2R prec64 emax64). Qed.
Lemma real_lt_max x : double x -> Rabs (real x) < bpow radix2 1024.
Proof. intros H. rewrite <- (toB_SF x H), real_B. apply (abs_B2R_lt_emax prec64 emax64). Qed.

Lemma overflow_inf s : ~ finite (binary_overflow prec64 emax64 mode_NE s).
Proof. intros H. exact H. Qed.

Section Ops.
Variables x y : NumF64.
Hypothesis Hx : double x.
Hypothesis Hy : double y.

Lemma add_double : double (x + y)%num.
Proof. rewrite <- (toB_SF x Hx), <- (toB_SF y Hy). cbn [nadd NumF64]. rewrite add_equiv. apply double_B. Qed.
Lemma sub_double : double (x - y)%num.
Proof. rewrite <- (toB_SF x Hx), <- (toB_SF y Hy). cbn [nsub NumF64]. rewrite sub_equiv. apply double_B. Qed.
Lemma mul_double : double (x * y)%num.
Proof. rewrite <- (toB_SF x Hx), <- (toB_SF y Hy). cbn [nmul NumF64]. rewrite mul_equiv. apply double_B. Qed.
Lemma div_double : double (x / y)%num.
Proof. rewrite <- (toB_SF x Hx), <- (toB_SF y Hy). cbn [ndiv NumF64]. rewrite div_equiv. apply double_B. Qed.
Lemma sqrt_double : double (nsqrt x).
Proof. rewrite <- (toB_SF x Hx). cbn [nsqrt NumF64]. rewrite sqrt_equiv. apply double_B. Qed.

Lemma add_finite_args : finite (x + y)%num -> finite x /\ finite y.
Proof. clear Hx Hy. destruct x as [[]|[]| |[] m e], y as [[]|[]| |[] m' e']; simpl; tauto. Qed.
Lemma sub_finite_args : finite (x - y)%num -> finite x /\ finite y.
Proof. clear Hx Hy. destruct x as [[]|[]| |[] m e], y as [[]|[]| |[] m' e']; simpl; tauto. Qed.
Lemma mul_finite_args : finite (x * y)%num -> finite x /\ finite y.
Proof. clear Hx Hy. destruct x as [[]|[]| |[] m e], y as [[]|[]| |[] m' e']; simpl; tauto. Qed.
Lemma div_finite_args : finite (x / y)%num -> finite x /\ (finite y -> real y <> 0).
Proof.
  clear Hx. intros H. split.
  - destruct x as [[]|[]| |[] m e], y as [[]|[]| |[] m' e']; simpl in *; tauto.
  - intros Hf. destruct y as [t|t| |t m' e']; try contradiction.
    + destruct x as [a|a| |a m e]; simpl in H; contradiction.
    + rewrite real_SF2R. apply F2R_neq_0. destruct t; discriminate.
Qed.

Lemma add_real : finite (x + y)%num -> real (x + y)%num = rnd (real x + real y).
Proof.
  intros H. destruct (add_finite_args H) as [Fx Fy]. revert H Fx Fy.
  rewrite <- (toB_SF x Hx), <- (toB_SF y Hy). cbn [nadd NumF64]. rewrite add_equiv. rewrite !finite_B, !real_B. intros H Fx Fy.
  pose proof (Bplus_correct prec64 emax64 Hprec64 Hmax64 mode_NE _ _ Fx Fy) as C.
  destruct Rlt_bool; [exact (proj1 C)|]. destruct C as [C _]. apply finite_B in H. rewrite C in H. now apply overflow_inf in H.
Qed.
Lemma sub_real : finite (x - y)%num -> real (x - y)%num = rnd (real x - real y).
Proof.
  intros H. destruct (sub_finite_args H) as [Fx Fy]. revert H Fx Fy.
  rewrite <- (toB_SF x Hx), <- (toB_SF y Hy). cbn [nsub NumF64]. rewrite sub_equiv. rewrite !finite_B, !real_B. intros H Fx Fy.
  pose proof (Bminus_correct prec64 emax64 Hprec64 Hmax64 mode_NE _ _ Fx Fy) as C.
  destruct Rlt_bool; [exact (proj1 C)|]. destruct C as [C _]. apply finite_B in H. rewrite C in H. now apply overflow_inf in H.
Qed.
Lemma mul_real : finite (x * y)%num -> real (x * y)%num = rnd (real x * real y).
Proof.
  rewrite <- (toB_SF x Hx), <- (toB_SF y Hy). cbn [nmul NumF64]. rewrite mul_equiv, !real_B. intros H.
  pose proof (Bmult_correct prec64 emax64 Hprec64 Hmax64 mode_NE (toB x Hx) (toB y Hy)) as C.
  destruct Rlt_bool; [exact (proj1 C)|]. rewrite C in H. now apply overflow_inf in H.
Qed.
Lemma div_real : finite y -> finite (x / y)%num -> real (x / y)%num = rnd (real x / real y).
Proof.
  intros Fy H. destruct (div_finite_args H) as [Fx N0]. specialize (N0 Fy). revert N0 H.
  rewrite <- (toB_SF x Hx), <- (toB_SF y Hy). cbn [ndiv NumF64]. rewrite div_equiv, !real_B. intros N0 H.
  pose proof (Bdiv_correct prec64 emax64 Hprec64 Hmax64 mode_NE (toB x Hx) (toB y Hy) N0) as C.
  destruct Rlt_bool; [exact (proj1 C)|]. rewrite C in H. now apply overflow_inf in H.
Qed.
Lemma sqrt_real : finite (nsqrt x) -> finite x /\ 0 <= real x /\ real (nsqrt x) = rnd (R_sqrt.sqrt (real x)).
Proof.
  rewrite <- (toB_SF x Hx). cbn [nsqrt NumF64]. rewrite sqrt_equiv, !real_B, !finite_B. intros H.
  pose proof (Bsqrt_correct prec64 emax64 Hprec64 Hmax64 mode_NE (toB x Hx)) as C.
  destruct C as [C1 [C2 _]]. rewrite C2 in H. split; [|split]; auto.
  - destruct (toB x Hx) as [| | |[] m e B]; simpl in *; congruence.
  - destruct (toB x Hx) as [| | |[] m e B]; simpl in *; try discriminate; try lra. apply F2R_ge_0. simpl. lia.
Qed.

(** No overflow: the result is finite. *)
Lemma add_finite : finite x -> finite y -> Rabs (rnd (real x + real y)) < bpow radix2 1024 -> finite (x + y)%num.
Proof.
  rewrite <- (toB_SF x Hx), <- (toB_SF y Hy). cbn [nadd NumF64]. rewrite add_equiv, !finite_B, !real_B. intros Fx Fy H.
  pose proof (Bplus_correct prec64 emax64 Hprec64 Hmax64 mode_NE _ _ Fx Fy) as C.
  rewrite Rlt_bool_true in C by exact H. apply C.
Qed.
Lemma sub_finite : finite x -> finite y -> Rabs (rnd (real x - real y)) < bpow radix2 1024 -> finite (x - y)%num.
Proof.
  rewrite <- (toB_SF x Hx), <- (toB_SF y Hy). cbn [nsub NumF64]. rewrite sub_equiv, !finite_B, !real_B. intros Fx Fy H.
  pose proof (Bminus_correct prec64 emax64 Hprec64 Hmax64 mode_NE _ _ Fx Fy) as C.
  rewrite Rlt_bool_true in C by exact H. apply C.
Qed.
Lemma mul_finite : finite x -> finite y -> Rabs (rnd (real x * real y)) < bpow radix2 1024 -> finite (x * y)%num.
Proof.
  rewrite <- (toB_SF x Hx), <- (toB_SF y Hy). cbn [nmul NumF64]. rewrite mul_equiv, !finite_B, !real_B. intros Fx Fy H.
  pose proof (Bmult_correct prec64 emax64 Hprec64 Hmax64 mode_NE (toB x Hx) (toB y Hy)) as C.
  rewrite Rlt_bool_true in C by exact H. destruct C as [_ [C _]]. rewrite C. now rewrite Fx, Fy.
Qed.
Lemma div_finite : finite x -> finite y -> real y <> 0 -> Rabs (rnd (real x / real y)) < bpow radix2 1024 -> finite (x / y)%num.
Proof.
  rewrite <- (toB_SF x Hx), <- (toB_SF y Hy). cbn [ndiv NumF64]. rewrite div_equiv, !finite_B, !real_B. intros Fx Fy N0 H.
  pose proof (Bdiv_correct prec64 emax64 Hprec64 Hmax64 mode_NE (toB x Hx) (toB y Hy) N0) as C.
  rewrite Rlt_bool_true in C by exact H. destruct C as [_ [C _]]. now rewrite C, Fx.
Qed.
End Ops.

(** Error of one operation. *)
Lemma u64_bpow : u64 = / 2 * bpow radix2 (- (53) + 1).
Proof.
  unfold u64. change (powerRZ 2) with (powerRZ (IZR (radix_val radix2))). rewrite <- bpow_powerRZ. change (- (53) + 1)%Z with (-53 + 1)%Z.
  rewrite bpow_plus. change (bpow radix2 1) with 2. lra.
Qed.
Lemma eta64_bpow : eta64 = / 2 * bpow radix2 (-1074).
Proof.
  unfold eta64. change (powerRZ 2) with (powerRZ (IZR (radix_val radix2))). rewrite <- bpow_powerRZ. change (-1074)%Z with (-1075 + 1)%Z.
  rewrite bpow_plus. change (bpow radix2 1) with 2. lra.
Qed.
Lemma u64_pos : 0 < u64.
Proof. unfold u64. apply powerRZ_lt. lra. Qed.
Lemma eta64_pos : 0 < eta64.
Proof. unfold eta64. apply powerRZ_lt. lra. Qed.

Lemma rnd_plus a b : generic_format radix2 fexp64 a -> generic_format radix2 fexp64 b ->
  exists d, Rabs d <= u64 /\ rnd (a + b) = (a + b) * (1 + d).
Proof.
  intros Ha Hb. assert (P : Prec_gt_0 53) by reflexivity.
  destruct (FLT_plus_error_N_ex radix2 (-1074) 53 (fun x => negb (Z.even x)) a b Ha Hb) as [d [D E]].
  exists d. split; [|exact E]. eapply Rle_trans; [exact D|]. unfold u_ro. rewrite <- u64_bpow.
  pose proof u64_pos. apply Rle_trans with (u64 / 1); [|lra]. apply Rmult_le_compat_l; [lra|].
  apply Rinv_le; lra.
Qed.
Lemma rnd_any a : exists d e, Rabs d <= u64 /\ Rabs e <= eta64 /\ rnd a = a * (1 + d) + e.
Proof.
  destruct (error_N_FLT radix2 (-1074) 53 eq_refl (fun x => negb (Z.even x)) a) as [d [e [D [E [_ R]]]]].
  exists d, e. rewrite u64_bpow, eta64_bpow. auto.
Qed.
Lemma rnd_id a : generic_format radix2 fexp64 a -> rnd a = a.
Proof. intros H. apply round_generic; auto with typeclass_instances. Qed.
Lemma int_format z : (Z.abs z <= 2 ^ 53)%Z -> generic_format radix2 fexp64 (IZR z).
Proof.
  intros H. destruct (Z.eq_dec (Z.abs z) (2 ^ 53)) as [E|E].
  - assert (G : generic_format radix2 fexp64 (bpow radix2 53)) by (apply generic_format_bpow; unfold FLT_exp; simpl; lia).
    destruct (Z.abs_eq_or_opp z) as [A|A]; rewrite A in E.
    + rewrite E. exact G.
    + replace z with (- 2 ^ 53)%Z by lia. rewrite opp_IZR. apply generic_format_opp. exact G.
  - apply generic_format_FLT. exists (Float radix2 z 0); simpl; try lia. unfold F2R. simpl. ring.
Qed.
Lemma int_small z : (Z.abs z <= 2 ^ 53)%Z -> Rabs (IZR z) < bpow radix2 1024.
Proof.
  intros H. rewrite <- abs_IZR. apply Rle_lt_trans with (IZR (2 ^ 53)); [now apply IZR_le|].
  change (IZR (2 ^ 53)) with (bpow radix2 53). apply bpow_lt. lia.
Qed.
