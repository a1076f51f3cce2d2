(** Properties C76 and C77: how far the numbers written by the finite difference programs are from the solution of the
    differential equation they are written for.  Exact real arithmetic; rounding is the subject of C72 - C75. *)
From Coq Require Import Reals Lra Lia List Arith ZArith SpecFloat.
From Verif Require Import Base Num NumInst OrdField UtilsInst GridModel GridSpec AccuracySpec GridTaylor GridPoisson GridHeat PropGrid GridAccuracy
  FloatSpec F64Flocq FloatResult ExampleBase GridCount.
Local Open Scope R_scope.

(** ** C76.  examples/poisson/fdm.cpp *)
(** [poisson_pde W L Mx My f b u]: u_xx + u_yy = f inside [0,W] x [0,L], u = b on its boundary, |u_xxxx| <= Mx, |u_yyyy| <= My.
    The solution of the assembled system is within (Mx H^2 + My K^2) / 12 * X (W - X) / 2 of u. *)
Theorem C76_scheme : forall XC YC (H K Mx My : R) (f b u : R -> R -> R) (v : nat -> nat -> R),
  (0 < XC)%nat -> (0 < YC)%nat -> 0 < H -> 0 < K ->
  let W := INR (XC - 1) * H in let L := INR (YC - 1) * K in
  poisson_pde W L Mx My f b u -> @poisson NumR XC YC H K f b v ->
  forall x y, (x < XC)%nat -> (y < YC)%nat ->
    let X := INR x * H in let Y := INR y * K in
    Rabs (v x y - u X Y) <= (Mx * (H * H) + My * (K * K)) / 12 * (X * (W - X) / 2).
Proof. intros XC YC H K Mx My f b u v PX PY PH PK W L Hu Hv x y Hx Hy X Y. exact (poisson_accuracy XC YC H K Mx My f b u v PX PY PH PK Hu Hv x y Hx Hy). Qed.

(** Second order: with step h = W/n in both directions the error is at most (Mx + My) W^2 / 96 * h^2. *)
Theorem C76_order : forall XC YC (h Mx My : R) (f b u : R -> R -> R) (v : nat -> nat -> R),
  (0 < XC)%nat -> (0 < YC)%nat -> 0 < h ->
  let W := INR (XC - 1) * h in let L := INR (YC - 1) * h in
  poisson_pde W L Mx My f b u -> @poisson NumR XC YC h h f b v ->
  forall x y, (x < XC)%nat -> (y < YC)%nat -> Rabs (v x y - u (INR x * h) (INR y * h)) <= (Mx + My) * W ^ 2 / 96 * h ^ 2.
Proof.
  intros XC YC h Mx My f b u v PX PY Ph W L Hu Hv x y Hx Hy.
  eapply Rle_trans; [exact (poisson_accuracy XC YC h h Mx My f b u v PX PY Ph Ph Hu Hv x y Hx Hy)|]. fold W.
  destruct (poisson_pde_nonneg _ _ _ _ _ _ _ _ _ (proj1 (grid_le XC x h Hx Ph)) (proj2 (grid_le XC x h Hx Ph)) (proj1 (grid_le YC y h Hy Ph)) (proj2 (grid_le YC y h Hy Ph)) Hu) as [Mxp Myp].
  set (X := INR x * h) in *. assert (Q : X * (W - X) <= W ^ 2 / 4) by (pose proof (Rle_0_sqr (W - 2 * X)) as S; unfold Rsqr in S; lra).
  replace ((Mx * (h * h) + My * (h * h)) / 12 * (X * (W - X) / 2)) with ((Mx + My) * (h * h) / 24 * (X * (W - X))) by field.
  replace ((Mx + My) * W ^ 2 / 96 * h ^ 2) with ((Mx + My) * (h * h) / 24 * (W ^ 2 / 4)) by field.
  apply Rmult_le_compat_l; auto. pose proof (Rmult_le_pos (Mx + My) (h * h) ltac:(lra) (Rle_0_sqr h)). lra.
Qed.

(** The numbers in the file: when fewer sweeps than the limit are reported, discretisation error plus the effect of the tolerance. *)
Theorem C76_program : forall XC YC (H K Mx My : R) (f b u : R -> R -> R) (w : R) maxIter (eps : R),
  (0 < XC)%nat -> (0 < YC)%nat -> 0 < H -> 0 < K -> w <> 0 -> 0 <= eps ->
  let W := INR (XC - 1) * H in let L := INR (YC - 1) * K in
  poisson_pde W L Mx My f b u ->
  returns (@fdm_main NumR XC YC H K f b w maxIter eps) (fun r => (snd r < maxIter)%nat ->
    forall x y, (x < XC)%nat -> (y < YC)%nat ->
      let X := INR x * H in let Y := INR y * K in let theta := Rabs (1 / w - 1) in
      Rabs (table2 (fst r) x y - u X Y) <=
        (Mx * (H * H) + My * (K * K)) / 12 * (X * (W - X) / 2) +
        eps * (theta + (2 * theta + 1) * (1 / (H * H) + 1 / (K * K)) * (X * (W - X) / 2))).
Proof. exact poisson_program_accuracy. Qed.

(** The problem of the shipped program: f = - sin(p x) sin(p y) with p = 3.141592 on the unit square, 201 x 201 points.  The
    solution is sin(p x) sin(p y) / (2 p^2); its fourth derivatives are at most p^2 / 2. *)
Definition p : R := 3141592 / 1000000.
Definition u76 (x y : R) : R := sin (p * x) * sin (p * y) / (2 * p ^ 2).
Lemma p_pos : 0 < p.
Proof. unfold p. lra. Qed.
Example C76_example : poisson_pde (INR (201 - 1) * (5 / 1000)) (INR (201 - 1) * (5 / 1000)) (p ^ 2 / 2) (p ^ 2 / 2)
    (fun x y => - (sin (p * x) * sin (p * y))) u76 u76.
Proof.
  assert (Np : p <> 0) by (pose proof p_pos; lra).
  assert (B : forall c s, Rabs c <= 1 -> Rabs (c * p ^ 2 / 2 * sin (p * s)) <= p ^ 2 / 2).
  { intros c s Hc. pose proof (SIN_bound (p * s)) as Hs. assert (Hs' : Rabs (sin (p * s)) <= 1) by (apply Rabs_le; lra).
    replace (c * p ^ 2 / 2 * sin (p * s)) with ((c * sin (p * s)) * (p ^ 2 / 2)) by field.
    assert (0 <= p ^ 2 / 2) by (pose proof (pow2_ge_0 p); lra). rewrite Rabs_mult, (Rabs_pos_eq (p ^ 2 / 2)) by auto.
    rewrite <- (Rmult_1_l (p ^ 2 / 2)) at 2. apply Rmult_le_compat_r; auto. rewrite Rabs_mult, <- (Rmult_1_l 1).
    apply Rmult_le_compat; auto using Rabs_pos. }
  assert (S : forall a c g g2, Rabs c <= 1 -> (forall s, c / (2 * p ^ 2) * sin (p * s) = g s) -> (forall s, - c / 2 * sin (p * s) = g2 s) -> smooth4 0 a (p ^ 2 / 2) g g2).
  { intros a c g g2 Hc E E2. exists (fun s => c / (2 * p) * cos (p * s)), (fun s => - c * p / 2 * cos (p * s)), (fun s => c * p ^ 2 / 2 * sin (p * s)).
    intros s _. split; [|split; [|split; [|split]]].
    - apply (dl_ext _ _ _ _ _ E eq_refl). refine (dl_ext _ _ _ _ _ (fun _ => eq_refl) _ (dl_sin (c / (2 * p ^ 2)) p s)). field; auto.
    - rewrite <- E2. refine (dl_ext _ _ _ _ _ (fun _ => eq_refl) _ (dl_cos (c / (2 * p)) p s)). field; auto.
    - apply (dl_ext _ _ _ _ _ E2 eq_refl). refine (dl_ext _ _ _ _ _ (fun _ => eq_refl) _ (dl_sin (- c / 2) p s)). field; auto.
    - refine (dl_ext _ _ _ _ _ (fun _ => eq_refl) _ (dl_cos (- c * p / 2) p s)). field; auto.
    - now apply B. }
  assert (Sb : forall s, Rabs (sin s) <= 1) by (intros s; pose proof (SIN_bound s); apply Rabs_le; lra).
  exists (fun x y => - (sin (p * x) * sin (p * y)) / 2), (fun x y => - (sin (p * x) * sin (p * y)) / 2). split; [|split; [|split]].
  - intros y _. apply (S _ (sin (p * y))); auto; intros; unfold u76; field; auto.
  - intros x _. apply (S _ (sin (p * x))); auto; intros; unfold u76; field; auto.
  - intros x y _ _. field.
  - reflexivity.
Qed.

(** The number of grid points, grid_width / H + 1 in doubles converted to size_t: n + 1 if the width is exactly n steps, *)
Theorem C76_count : forall (width h : NumF64) (n : nat), double width -> double h -> finite width -> finite h -> real h <> 0 ->
  (Z.of_nat n < 2 ^ 53)%Z -> real width = INR n * real h -> grid_count width h = Ok (S n).
Proof. exact exact_count. Qed.
(** n or n + 1 if it is n steps up to a quarter of a step. *)
Theorem C76_count_near : forall (width h : NumF64) (n : nat), double width -> double h -> finite width -> finite h -> 0 < real h ->
  (0 < Z.of_nat n < 2 ^ 50)%Z -> Rabs (real width - INR n * real h) <= real h / 4 -> grid_count width h = Ok n \/ grid_count width h = Ok (S n).
Proof. exact near_count. Qed.
(** [FINDING] For a width of 1 and the double nearest to 1/93 the quotient is rounded to a number below 93 and the last column of
    points is missing: the values prescribed at x = 1 are imposed at x = 92/93. *)
Theorem C76_count_refuted : exists (n : nat) (width h : NumF64), real width = 1 /\ nearest h (1 / INR n) /\ grid_count width h = Ok n.
Proof.
  exists 93%nat, (fz 1), (ndiv (fz 1) (fz 93)). split; [unfold fz, f64_of_Z; simpl; lra|]. split.
  - apply nearest_rnd; [apply div_double; reflexivity|]. rewrite div_real; [|reflexivity|reflexivity|exact I|vm_compute; exact I].
    f_equal. unfold fz, f64_of_Z. simpl. lra.
  - vm_compute. reflexivity.
Qed.
(** The shipped steps 0.005 and 0.01 (as the nearest doubles) give 201 and 101 points. *)
Example C76_count_example : grid_count (fz 1) (ndiv (fz 5) (fz 1000)) = Ok 201%nat /\ grid_count (fz 1) (ndiv (fz 1) (fz 100)) = Ok 101%nat /\
  grid_count (fz 1) (ndiv (fz 1) (fz 4)) = Ok 5%nat.
Proof. split; [|split]; vm_compute; reflexivity. Qed.

(** ** C77.  examples/heat/main.cpp *)
(** [heat_pde S W L Mt Mx My k f b t0 u]: u_t = k (u_xx + u_yy) + f inside, u = t0 at time 0, u = b on the boundary, |u_tt| <= Mt.
    First order in time, second order in space, for every time step. *)
Theorem C77_scheme : forall TC XC YC (HT HX HY Mt Mx My kmax : R) (k f b : R -> R -> R -> R) (t0 : R -> R -> R) (u : R -> R -> R -> R) (v : nat -> nat -> nat -> R),
  (0 < TC)%nat -> (0 < XC)%nat -> (0 < YC)%nat -> 0 < HT -> 0 < HX -> 0 < HY ->
  (forall t x y, (t < TC)%nat -> (x < XC)%nat -> (y < YC)%nat -> 0 <= k (INR t * HT) (INR x * HX) (INR y * HY) <= kmax) ->
  heat_pde (INR (TC - 1) * HT) (INR (XC - 1) * HX) (INR (YC - 1) * HY) Mt Mx My k f b t0 u -> @heat NumR TC XC YC HT HX HY k f b t0 v ->
  forall t x y, (t < TC)%nat -> (x < XC)%nat -> (y < YC)%nat ->
    Rabs (v t x y - u (INR t * HT) (INR x * HX) (INR y * HY)) <=
      (Mt * HT / 2 + kmax * ((Mx * (HX * HX) + My * (HY * HY)) / 12)) * (INR t * HT).
Proof. exact heat_accuracy. Qed.

Theorem C77_program : forall TC XC YC (HT HX HY Mt Mx My kmax : R) (k f b : R -> R -> R -> R) (t0 : R -> R -> R) (u : R -> R -> R -> R) (w : R) maxIter (eps : R),
  (0 < TC)%nat -> (0 < XC)%nat -> (0 < YC)%nat -> 0 < HT -> 0 < HX -> 0 < HY -> w <> 0 -> 0 <= eps ->
  (forall t x y, (t < TC)%nat -> (x < XC)%nat -> (y < YC)%nat -> 0 <= k (INR t * HT) (INR x * HX) (INR y * HY) <= kmax) ->
  heat_pde (INR (TC - 1) * HT) (INR (XC - 1) * HX) (INR (YC - 1) * HY) Mt Mx My k f b t0 u ->
  returns (@heat_main NumR TC XC YC HT HX HY k f b t0 w maxIter eps) (fun r => (snd r < maxIter)%nat ->
    forall t x y, (t < TC)%nat -> (x < XC)%nat -> (y < YC)%nat ->
      let theta := Rabs (1 / w - 1) in
      Rabs (table3 (fst r) t x y - u (INR t * HT) (INR x * HX) (INR y * HY)) <=
        (Mt * HT / 2 + kmax * ((Mx * (HX * HX) + My * (HY * HY)) / 12)) * (INR t * HT) +
        eps * (theta + ((2 * theta + 1) * (1 / (HX * HX) + 1 / (HY * HY)) * kmax + theta / HT) * (INR t * HT))).
Proof. exact heat_program_accuracy. Qed.

(** u = exp(-2 k p^2 t) sin(p x) sin(p y) solves u_t = k (u_xx + u_yy) with the shipped conductivity k = 0.6. *)
Definition k77 : R := 6 / 10.
Definition u77 (t x y : R) : R := exp (- (2 * k77 * p ^ 2) * t) * (sin (p * x) * sin (p * y)).
Example C77_example : heat_pde (INR (101 - 1) * (1 / 100)) (INR (101 - 1) * (1 / 100)) (INR (101 - 1) * (1 / 100)) ((2 * k77 * p ^ 2) ^ 2) (p ^ 4) (p ^ 4)
    (fun _ _ _ => k77) (fun _ _ _ => 0) u77 (fun x y => sin (p * x) * sin (p * y)) u77.
Proof.
  set (q := 2 * k77 * p ^ 2). assert (Pq : 0 < q) by (unfold q, k77; pose proof (pow_lt p 2 p_pos); lra).
  assert (Sb : forall s, Rabs (sin s) <= 1) by (intros s; pose proof (SIN_bound s); apply Rabs_le; lra).
  assert (M1 : forall a b, Rabs a <= 1 -> Rabs b <= 1 -> Rabs (a * b) <= 1).
  { intros a b Ha Hb. rewrite Rabs_mult, <- (Rmult_1_l 1). apply Rmult_le_compat; auto using Rabs_pos. }
  assert (Mc : forall a c, 0 <= c -> Rabs a <= 1 -> Rabs (c * a) <= c).
  { intros a c Hc Ha. rewrite Rabs_mult, (Rabs_pos_eq c) by auto. pose proof (Rmult_le_compat_l c _ _ Hc Ha). lra. }
  assert (Eb : forall t, 0 <= t -> Rabs (exp (- q * t)) <= 1).
  { intros t Ht. pose proof (exp_pos (- q * t)). rewrite Rabs_pos_eq by lra. rewrite <- exp_0. destruct (Req_dec t 0) as [->|Hn]; [right; f_equal; ring|].
    left. apply exp_increasing. assert (0 < q * t) by (apply Rmult_lt_0_compat; lra). lra. }
  assert (S : forall a c g g2, Rabs c <= 1 -> (forall s, c * sin (p * s) = g s) -> (forall s, - (c * p ^ 2) * sin (p * s) = g2 s) -> smooth4 0 a (p ^ 4) g g2).
  { intros a c g g2 Hc E E2. exists (fun s => c * p * cos (p * s)), (fun s => - (c * p ^ 3) * cos (p * s)), (fun s => c * p ^ 4 * sin (p * s)).
    intros s _. split; [|split; [|split; [|split]]].
    - apply (dl_ext _ _ _ _ _ E eq_refl). apply dl_sin.
    - rewrite <- E2. refine (dl_ext _ _ _ _ _ (fun _ => eq_refl) _ (dl_cos (c * p) p s)). ring.
    - apply (dl_ext _ _ _ _ _ E2 eq_refl). refine (dl_ext _ _ _ _ _ (fun _ => eq_refl) _ (dl_sin (- (c * p ^ 2)) p s)). ring.
    - refine (dl_ext _ _ _ _ _ (fun _ => eq_refl) _ (dl_cos (- (c * p ^ 3)) p s)). ring.
    - replace (c * p ^ 4 * sin (p * s)) with (p ^ 4 * (c * sin (p * s))) by ring. apply Mc; auto. apply pow_le. pose proof p_pos; lra. }
  exists (fun t x y => - q * u77 t x y), (fun t x y => - p ^ 2 * u77 t x y), (fun t x y => - p ^ 2 * u77 t x y).
  unfold u77. fold q. split; [|split; [|split; [|split; [|split]]]].
  - intros x y _ _. exists (fun t => q ^ 2 * (exp (- q * t) * (sin (p * x) * sin (p * y)))). intros t Ht. split; [|split].
    + refine (dl_ext _ _ _ _ _ _ _ (dl_exp (sin (p * x) * sin (p * y)) (- q) t)); intros; ring.
    + refine (dl_ext _ _ _ _ _ _ _ (dl_exp (- q * (sin (p * x) * sin (p * y))) (- q) t)); intros; ring.
    + apply Mc; [apply pow_le; lra|]. apply M1; [apply Eb; lra|]. apply M1; auto.
  - intros t y Ht _. apply (S _ (exp (- q * t) * sin (p * y))); [apply M1; auto; apply Eb; lra| |]; intros; ring.
  - intros t x Ht _. apply (S _ (exp (- q * t) * sin (p * x))); [apply M1; auto; apply Eb; lra| |]; intros; ring.
  - intros t x y _ _ _. unfold q. ring.
  - intros x y _ _. rewrite Rmult_0_r, exp_0. ring.
  - reflexivity.
Qed.
