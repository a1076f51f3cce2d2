(** The programs against the differential equations: C67/C68 certificates plus the discretisation errors of GridTaylor. *)
From Coq Require Import Reals Lra Lia List Arith.
From Verif Require Import Base Num NumInst OrdField UtilsInst GridModel GridSpec AccuracySpec GridTaylor GridPoisson GridHeat PropGrid.
Local Open Scope R_scope.

Lemma poisson_program_accuracy XC YC (H K Mx My : R) (f b u : R -> R -> R) (w : R) maxIter (eps : R) :
  (0 < XC)%nat -> (0 < YC)%nat -> 0 < H -> 0 < K -> w <> 0 -> 0 <= eps ->
  let W := INR (XC - 1) * H in let L := INR (YC - 1) * K in
  poisson_pde W L Mx My f b u ->
  returns (@fdm_main NumR XC YC H K f b w maxIter eps) (fun r => (snd r < maxIter)%nat ->
    forall x y, (x < XC)%nat -> (y < YC)%nat ->
      let X := INR x * H in let Y := INR y * K in let theta := Rabs (1 / w - 1) in
      Rabs (table2 (fst r) x y - u X Y) <=
        (Mx * (H * H) + My * (K * K)) / 12 * (X * (W - X) / 2) +
        eps * (theta + (2 * theta + 1) * (1 / (H * H) + 1 / (K * K)) * (X * (W - X) / 2))).
Proof.
  intros PX PY PH PK Hw He W L Hu.
  assert (NH : H <> 0) by lra. assert (NK : K <> 0) by lra.
  destruct (C67_solvable NumR NumR_ord NumR_nat XC YC H K f b PX PY NH NK) as (v & Hv & _).
  assert (He' : @nleb NumR n0 eps = true) by (apply Rle_bool_iff; exact He).
  destruct (C67_certificate NumR NumR_ord NumR_nat XC YC H K f b w maxIter eps v PX PY NH NK Hw He' Hv) as (r & Er & Hr).
  exists r. split; [exact Er|]. intros Hlt x y Hx Hy X Y theta. specialize (Hr Hlt x y Hx Hy). cbn zeta in Hr.
  apply Rle_bool_iff in Hr. unfold bubble in Hr. cbn [NumR nabs nsub n0 n1 T nadd nmul ndiv nofnat] in Hr. fold theta X W in Hr.
  pose proof (poisson_accuracy XC YC H K Mx My f b u v PX PY PH PK Hu Hv x y Hx Hy) as A. fold X Y W in A.
  replace (table2 (fst r) x y - u X Y) with ((table2 (fst r) x y - v x y) + (v x y - u X Y)) by ring.
  eapply Rle_trans; [apply Rabs_triang|]. eapply Rle_trans; [apply Rplus_le_compat; [exact Hr|exact A]|]. right. field. auto.
Qed.
Lemma heat_program_accuracy TC XC YC (HT HX HY Mt Mx My kmax : R) (k f b : R -> R -> R -> R) (t0 : R -> R -> R) (u : R -> R -> R -> R) (w : R) maxIter (eps : R) :
  (0 < TC)%nat -> (0 < XC)%nat -> (0 < YC)%nat -> 0 < HT -> 0 < HX -> 0 < HY -> w <> 0 -> 0 <= eps ->
  (forall t x y, (t < TC)%nat -> (x < XC)%nat -> (y < YC)%nat -> 0 <= k (INR t * HT) (INR x * HX) (INR y * HY) <= kmax) ->
  heat_pde (INR (TC - 1) * HT) (INR (XC - 1) * HX) (INR (YC - 1) * HY) Mt Mx My k f b t0 u ->
  returns (@heat_main NumR TC XC YC HT HX HY k f b t0 w maxIter eps) (fun r => (snd r < maxIter)%nat ->
    forall t x y, (t < TC)%nat -> (x < XC)%nat -> (y < YC)%nat ->
      let theta := Rabs (1 / w - 1) in
      Rabs (table3 (fst r) t x y - u (INR t * HT) (INR x * HX) (INR y * HY)) <=
        (Mt * HT / 2 + kmax * ((Mx * (HX * HX) + My * (HY * HY)) / 12)) * (INR t * HT) +
        eps * (theta + ((2 * theta + 1) * (1 / (HX * HX) + 1 / (HY * HY)) * kmax + theta / HT) * (INR t * HT))).
Proof.
  intros PT PX PY P0 P1 P2 Hw He Pk Hu.
  assert (N1 : HX <> 0) by lra. assert (N2 : HY <> 0) by lra. assert (L0 := Rlt_true 0 HT P0).
  assert (He' : @nleb NumR n0 eps = true) by (apply Rle_bool_iff; exact He).
  assert (K1 : forall t x y, (t < TC)%nat -> (x < XC)%nat -> (y < YC)%nat ->
    @nleb NumR n0 (k (INR t * HT) (INR x * HX) (INR y * HY)) = true /\ @nleb NumR (k (INR t * HT) (INR x * HX) (INR y * HY)) kmax = true).
  { intros t x y Ht Hx Hy. split; apply Rle_bool_iff; apply (Pk t x y Ht Hx Hy). }
  destruct (C68_solvable NumR NumR_ord NumR_nat TC XC YC HT HX HY k f b t0 PT PX PY L0 N1 N2) as (v & Hv & _); [intros; now apply K1|].
  destruct (C68_certificate NumR NumR_ord NumR_nat TC XC YC HT HX HY k f b t0 w maxIter eps kmax v PT PX PY L0 N1 N2 Hw He' K1 Hv) as (r & Er & Hr).
  exists r. split; [exact Er|]. intros Hlt t x y Ht Hx Hy theta. specialize (Hr Hlt t x y Ht Hx Hy). cbn zeta in Hr.
  apply Rle_bool_iff in Hr. cbn [NumR nabs nsub n0 n1 T nadd nmul ndiv nofnat] in Hr. fold theta in Hr.
  pose proof (heat_accuracy TC XC YC HT HX HY Mt Mx My kmax k f b t0 u v PT PX PY P0 P1 P2 Pk Hu Hv t x y Ht Hx Hy) as A.
  replace (table3 (fst r) t x y - u (INR t * HT) (INR x * HX) (INR y * HY)) with
    ((table3 (fst r) t x y - v t x y) + (v t x y - u (INR t * HT) (INR x * HX) (INR y * HY))) by ring.
  eapply Rle_trans; [apply Rabs_triang|]. eapply Rle_trans; [apply Rplus_le_compat; [exact Hr|exact A]|]. right. field. lra.
Qed.
Lemma poisson_pde_nonneg W L Mx My f b u x y : 0 <= x -> x <= W -> 0 <= y -> y <= L -> poisson_pde W L Mx My f b u -> 0 <= Mx /\ 0 <= My.
Proof.
  intros H1 H2 H3 H4 (uxx & uyy & Sx & Sy & _).
  split; [apply (smooth4_nonneg 0 W _ _ _ ltac:(lra) (Sx y ltac:(lra)))|apply (smooth4_nonneg 0 L _ _ _ ltac:(lra) (Sy x ltac:(lra)))].
Qed.
