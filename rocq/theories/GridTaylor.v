(** Difference quotients against derivatives, and the distance between the solutions of the schemes and of the differential
    equations. *)
From Coq Require Import Reals Lra Lia Arith.
From Verif Require Import Base Num NumInst OrdField UtilsInst GridSpec GridMax GridHeat AccuracySpec.
Local Open Scope R_scope.

(** ** Taylor bounds *)
Lemma abs_inv x M : Rabs x <= M -> - M <= x <= M.
Proof. unfold Rabs. destruct (Rcase_abs x); lra. Qed.
Lemma grow (f f' : R -> R) (c h : R) : 0 <= h -> (forall s, 0 <= s <= h -> derivable_pt_lim f s (f' s)) ->
  (forall s, 0 <= s <= h -> 0 <= f' s) -> f 0 = c -> c <= f h.
Proof.
  intros Hh D P E. destruct (Req_dec h 0) as [->|Hn]; [lra|].
  destruct (MVT_cor2 f f' 0 h) as (t & Et & Ht); [lra|auto|]. specialize (P t). assert (0 <= f' t * (h - 0)) by (apply Rmult_le_pos; [apply P|]; lra). lra.
Qed.
Lemma dl_ext (f g : R -> R) x l l' : (forall t, f t = g t) -> l = l' -> derivable_pt_lim f x l -> derivable_pt_lim g x l'.
Proof. intros E <- D e He. destruct (D e He) as (d & Hd). exists d. intros h H1 H2. rewrite <- !E. auto. Qed.
Lemma dl_lin a b s : derivable_pt_lim (fun s => a * s + b) s a.
Proof.
  apply (dl_ext (fun s => b + a * id s) _ _ (0 + a * 1)); [intros; unfold id; ring|ring|].
  apply (derivable_pt_lim_plus (fun _ => b) (fun s => a * id s)); [apply derivable_pt_lim_const|].
  apply (derivable_pt_lim_scal id), derivable_pt_lim_id.
Qed.
Lemma dl_shift (g g' : R -> R) (x a s : R) : derivable_pt_lim g (x + a * s) (g' (x + a * s)) ->
  derivable_pt_lim (fun s => g (x + a * s)) s (a * g' (x + a * s)).
Proof.
  intros D. assert (I : derivable_pt_lim (fun s => x + a * s) s a).
  { apply (dl_ext (fun s => a * s + x) _ _ a); [intros; ring|reflexivity|apply dl_lin]. }
  rewrite Rmult_comm. exact (derivable_pt_lim_comp _ _ _ _ _ I D).
Qed.
Lemma dl_comp_lin (g : R -> R) (c a l s : R) : derivable_pt_lim g (a * s) l -> derivable_pt_lim (fun s => c * g (a * s)) s (c * (a * l)).
Proof.
  intros D. apply (derivable_pt_lim_scal (fun s => g (a * s))).
  assert (I : derivable_pt_lim (fun s => a * s) s a) by (apply (dl_ext (fun s => a * s + 0) _ _ a); [intros; ring|reflexivity|apply dl_lin]).
  rewrite Rmult_comm. exact (derivable_pt_lim_comp _ _ _ _ _ I D).
Qed.
Lemma dl_sin c a s : derivable_pt_lim (fun s => c * sin (a * s)) s (c * a * cos (a * s)).
Proof. rewrite Rmult_assoc. apply dl_comp_lin, derivable_pt_lim_sin. Qed.
Lemma dl_cos c a s : derivable_pt_lim (fun s => c * cos (a * s)) s (- (c * a) * sin (a * s)).
Proof. replace (- (c * a) * sin (a * s)) with (c * (a * - sin (a * s))) by ring. apply dl_comp_lin, derivable_pt_lim_cos. Qed.
Lemma dl_exp c a s : derivable_pt_lim (fun s => c * exp (a * s)) s (c * a * exp (a * s)).
Proof. rewrite Rmult_assoc. apply dl_comp_lin, derivable_pt_lim_exp. Qed.
Lemma dl_pow a n s : derivable_pt_lim (fun s => a * s ^ S n) s (a * INR (S n) * s ^ n).
Proof. rewrite Rmult_assoc. apply (derivable_pt_lim_scal (fun s => s ^ S n)). apply derivable_pt_lim_pow. Qed.

(** |g(x-h) - 2 g(x) + g(x+h) - h^2 g''(x)| <= M h^4 / 12 *)
Lemma second_difference a b M g g2 x h : smooth4 a b M g g2 -> 0 <= h -> a <= x - h -> x + h <= b ->
  Rabs (g (x - h) - 2 * g x + g (x + h) - h * h * g2 x) <= M * h ^ 4 / 12.
Proof.
  intros (g1 & g3 & g4 & D) Hh Ha Hb.
  assert (In : forall e s, e = 1 \/ e = -1 -> 0 <= s <= h -> a <= x + e * s <= b) by (intros e s [->| ->] Hs; lra).
  assert (main : forall e, e = 1 \/ e = -1 -> e * (g (x + 1 * h) + g (x + -1 * h) - 2 * g x - h * h * g2 x) <= M * h ^ 4 / 12).
  { intros e He.
    assert (P1 : 1 = 1 \/ 1 = -1) by now left. assert (P2 : -1 = 1 \/ -1 = -1) by now right.
    assert (Eb : forall v, Rabs v <= M -> e * v <= M) by (intros v Hv; apply abs_inv in Hv; destruct He as [->| ->]; lra).
    set (p := fun s => M / 12 * s ^ 4 - e * (g (x + 1 * s) + g (x + -1 * s) - 2 * g x - s * s * g2 x)).
    set (p1 := fun s => M / 3 * s ^ 3 - e * (g1 (x + 1 * s) - g1 (x + -1 * s) - 2 * s * g2 x)).
    set (p2 := fun s => M * s ^ 2 - e * (g2 (x + 1 * s) + g2 (x + -1 * s) - 2 * g2 x)).
    set (p3 := fun s => 2 * M * s - e * (g3 (x + 1 * s) - g3 (x + -1 * s))).
    set (p4 := fun s => 2 * M - e * (g4 (x + 1 * s) + g4 (x + -1 * s))).
    assert (D0 : forall s, 0 <= s <= h -> derivable_pt_lim p s (p1 s)).
    { intros s Hs. destruct (D _ (In 1 s P1 Hs)) as (A1 & _). destruct (D _ (In (-1) s P2 Hs)) as (A2 & _).
      apply dl_shift in A1, A2. pose proof (derivable_pt_lim_plus _ _ _ _ _ A1 A2) as A.
      pose proof (derivable_pt_lim_minus _ _ _ _ _ A (dl_pow (g2 x) 1 s)) as A'.
      pose proof (derivable_pt_lim_minus _ _ _ _ _ (dl_pow (M / 12) 3 s) (derivable_pt_lim_scal _ e _ _ A')) as A''.
      pose proof (derivable_pt_lim_plus _ _ _ _ _ A'' (derivable_pt_lim_const (e * (2 * g x)) s)) as F.
      refine (dl_ext _ _ _ _ _ _ _ F).
      - intros t. unfold p, minus_fct, plus_fct, mult_real_fct, fct_cte. ring.
      - unfold p1. simpl INR. field. }
    assert (D1 : forall s, 0 <= s <= h -> derivable_pt_lim p1 s (p2 s)).
    { intros s Hs. destruct (D _ (In 1 s P1 Hs)) as (_ & A1 & _). destruct (D _ (In (-1) s P2 Hs)) as (_ & A2 & _).
      apply dl_shift in A1, A2. pose proof (derivable_pt_lim_minus _ _ _ _ _ A1 A2) as A.
      pose proof (derivable_pt_lim_minus _ _ _ _ _ A (dl_pow (2 * g2 x) 0 s)) as A'.
      pose proof (derivable_pt_lim_minus _ _ _ _ _ (dl_pow (M / 3) 2 s) (derivable_pt_lim_scal _ e _ _ A')) as F.
      refine (dl_ext _ _ _ _ _ _ _ F).
      - intros t. unfold p1, minus_fct, plus_fct, mult_real_fct, fct_cte. ring.
      - unfold p2. simpl INR. field. }
    assert (D2 : forall s, 0 <= s <= h -> derivable_pt_lim p2 s (p3 s)).
    { intros s Hs. destruct (D _ (In 1 s P1 Hs)) as (_ & _ & A1 & _). destruct (D _ (In (-1) s P2 Hs)) as (_ & _ & A2 & _).
      apply dl_shift in A1, A2. pose proof (derivable_pt_lim_plus _ _ _ _ _ A1 A2) as A.
      pose proof (derivable_pt_lim_minus _ _ _ _ _ (dl_pow M 1 s) (derivable_pt_lim_scal _ e _ _ A)) as A'.
      pose proof (derivable_pt_lim_plus _ _ _ _ _ A' (derivable_pt_lim_const (e * (2 * g2 x)) s)) as F.
      refine (dl_ext _ _ _ _ _ _ _ F).
      - intros t. unfold p2, minus_fct, plus_fct, mult_real_fct, fct_cte. ring.
      - unfold p3. simpl INR. field. }
    assert (D3 : forall s, 0 <= s <= h -> derivable_pt_lim p3 s (p4 s)).
    { intros s Hs. destruct (D _ (In 1 s P1 Hs)) as (_ & _ & _ & A1 & _). destruct (D _ (In (-1) s P2 Hs)) as (_ & _ & _ & A2 & _).
      apply dl_shift in A1, A2. pose proof (derivable_pt_lim_minus _ _ _ _ _ A1 A2) as A.
      pose proof (derivable_pt_lim_minus _ _ _ _ _ (dl_pow (2 * M) 0 s) (derivable_pt_lim_scal _ e _ _ A)) as F.
      refine (dl_ext _ _ _ _ _ _ _ F).
      - intros t. unfold p3, minus_fct, plus_fct, mult_real_fct, fct_cte. ring.
      - unfold p4. simpl INR. field. }
    assert (Q4 : forall s, 0 <= s <= h -> 0 <= p4 s).
    { intros s Hs. unfold p4. destruct (D _ (In 1 s P1 Hs)) as (_ & _ & _ & _ & A1). destruct (D _ (In (-1) s P2 Hs)) as (_ & _ & _ & _ & A2).
      apply Eb in A1, A2. lra. }
    assert (Z : forall t, x + t * 0 = x) by (intros; ring).
    assert (Q3 : forall s, 0 <= s <= h -> 0 <= p3 s).
    { intros s Hs. apply (grow p3 p4); [lra|intros; apply D3; lra|intros; apply Q4; lra|]. unfold p3. rewrite !Z. ring. }
    assert (Q2 : forall s, 0 <= s <= h -> 0 <= p2 s).
    { intros s Hs. apply (grow p2 p3); [lra|intros; apply D2; lra|intros; apply Q3; lra|]. unfold p2. rewrite !Z. ring. }
    assert (Q1 : forall s, 0 <= s <= h -> 0 <= p1 s).
    { intros s Hs. apply (grow p1 p2); [lra|intros; apply D1; lra|intros; apply Q2; lra|]. unfold p1. rewrite !Z. ring. }
    assert (Q0 : 0 <= p h).
    { apply (grow p p1); auto; unfold p; rewrite !Z; ring. }
    unfold p in Q0. lra. }
  pose proof (main 1 (or_introl eq_refl)). pose proof (main (-1) (or_intror eq_refl)).
  replace (x + 1 * h) with (x + h) in * by ring. replace (x + -1 * h) with (x - h) in * by ring.
  apply Rabs_le. lra.
Qed.
(** |g(t) - g(t-h) - h g'(t)| <= M h^2 / 2 *)
Lemma first_difference a b M g g1 t h : smooth2 a b M g g1 -> 0 <= h -> a <= t - h -> t <= b ->
  Rabs (g t - g (t - h) - h * g1 t) <= M * h ^ 2 / 2.
Proof.
  intros (g2 & D) Hh Ha Hb.
  assert (In : forall s, 0 <= s <= h -> a <= t + -1 * s <= b) by (intros s Hs; lra).
  assert (main : forall e, e = 1 \/ e = -1 -> e * (g t - g (t + -1 * h) - h * g1 t) <= M * h ^ 2 / 2).
  { intros e He.
    assert (Eb : forall v, Rabs v <= M -> e * v <= M) by (intros v Hv; apply abs_inv in Hv; destruct He as [->| ->]; lra).
    assert (Eb' : forall v, Rabs v <= M -> - (e * v) <= M) by (intros v Hv; apply abs_inv in Hv; destruct He as [->| ->]; lra).
    set (p := fun s => M / 2 * s ^ 2 - e * (g t - g (t + -1 * s) - s * g1 t)).
    set (p1 := fun s => M * s - e * (g1 (t + -1 * s) - g1 t)).
    set (p2 := fun s => M + e * g2 (t + -1 * s)).
    assert (D0 : forall s, 0 <= s <= h -> derivable_pt_lim p s (p1 s)).
    { intros s Hs. destruct (D _ (In s Hs)) as (A & _). apply dl_shift in A.
      pose proof (derivable_pt_lim_plus _ _ _ _ _ A (dl_pow (g1 t) 0 s)) as A'.
      pose proof (derivable_pt_lim_plus _ _ _ _ _ (dl_pow (M / 2) 1 s) (derivable_pt_lim_scal _ e _ _ A')) as A''.
      pose proof (derivable_pt_lim_minus _ _ _ _ _ A'' (derivable_pt_lim_const (e * g t) s)) as F.
      refine (dl_ext _ _ _ _ _ _ _ F).
      - intros z. unfold p, minus_fct, plus_fct, mult_real_fct, fct_cte. ring.
      - unfold p1. simpl INR. field. }
    assert (D1 : forall s, 0 <= s <= h -> derivable_pt_lim p1 s (p2 s)).
    { intros s Hs. destruct (D _ (In s Hs)) as (_ & A & _). apply dl_shift in A.
      pose proof (derivable_pt_lim_minus _ _ _ _ _ (dl_pow M 0 s) (derivable_pt_lim_scal _ e _ _ A)) as A''.
      pose proof (derivable_pt_lim_plus _ _ _ _ _ A'' (derivable_pt_lim_const (e * g1 t) s)) as F.
      refine (dl_ext _ _ _ _ _ _ _ F).
      - intros z. unfold p1, minus_fct, plus_fct, mult_real_fct, fct_cte. ring.
      - unfold p2. simpl INR. field. }
    assert (Z : t + -1 * 0 = t) by ring.
    assert (Q1 : forall s, 0 <= s <= h -> 0 <= p1 s).
    { intros s Hs. apply (grow p1 p2); [lra|intros; apply D1; lra| |unfold p1; rewrite !Z; ring].
      intros z Hz. unfold p2. assert (Hz' : 0 <= z <= h) by lra. destruct (D _ (In z Hz')) as (_ & _ & A). apply Eb' in A. lra. }
    assert (Q0 : 0 <= p h) by (apply (grow p p1); auto; unfold p; rewrite !Z; ring).
    unfold p in Q0. lra. }
  pose proof (main 1 (or_introl eq_refl)). pose proof (main (-1) (or_intror eq_refl)).
  replace (t + -1 * h) with (t - h) in * by ring. apply Rabs_le. lra.
Qed.

(** ** Grids *)
Lemma Rlt_true (x y : R) : x < y -> @nltb NumR x y = true.
Proof. intros L. apply (olt_iff NumR_ord). intros E. apply Rle_bool_iff in E. lra. Qed.
Lemma grid_le n x (h : R) : (x < n)%nat -> 0 < h -> 0 <= INR x * h <= INR (n - 1) * h.
Proof.
  intros Hx Hh. pose proof (pos_INR x). assert (INR x <= INR (n - 1)) by (apply le_INR; lia).
  split; [apply Rmult_le_pos; lra|apply Rmult_le_compat_r; lra].
Qed.
Lemma grid_lt n x (h : R) : (0 < x)%nat -> (x < n - 1)%nat -> 0 < h -> 0 < INR x * h < INR (n - 1) * h.
Proof.
  intros Hx Hn Hh. apply lt_0_INR in Hx. apply lt_INR in Hn. split; [apply Rmult_lt_0_compat; lra|apply Rmult_lt_compat_r; lra].
Qed.
Lemma grid_prev x (h : R) : (0 < x)%nat -> INR (x - 1) * h = INR x * h - h.
Proof. intros Hx. rewrite minus_INR by lia. simpl INR. ring. Qed.
Lemma grid_next x (h : R) : INR (x + 1) * h = INR x * h + h.
Proof. rewrite plus_INR. simpl INR. ring. Qed.
Lemma rim_coords XC YC x y (H K : R) : on_rim XC YC x y ->
  INR x * H = 0 \/ INR x * H = INR (XC - 1) * H \/ INR y * K = 0 \/ INR y * K = INR (YC - 1) * K.
Proof.
  intros [->|[->|[->| ->]]]; simpl INR; [left; ring|right; left|right; right; left; ring|right; right; right]; reflexivity.
Qed.
Lemma diff2_error a b M g g2 x h : smooth4 a b M g g2 -> 0 < h -> a <= x - h -> x + h <= b ->
  Rabs (@diff2 NumR h (g (x - h)) (g x) (g (x + h)) - g2 x) <= M * (h * h) / 12.
Proof.
  intros S Hh Ha Hb. pose proof (second_difference a b M g g2 x h S (Rlt_le _ _ Hh) Ha Hb) as E.
  change (@diff2 NumR h (g (x - h)) (g x) (g (x + h))) with ((g (x - h) - (1 + 1) * g x + g (x + h)) / (h * h)).
  replace ((g (x - h) - (1 + 1) * g x + g (x + h)) / (h * h) - g2 x) with
    ((g (x - h) - 2 * g x + g (x + h) - h * h * g2 x) * / (h * h)) by (field; lra).
  assert (P : 0 < / (h * h)) by (apply Rinv_0_lt_compat, Rmult_lt_0_compat; lra).
  rewrite Rabs_mult, (Rabs_pos_eq (/ (h * h))) by lra.
  replace (M * (h * h) / 12) with (M * h ^ 4 / 12 * / (h * h)) by (field; lra).
  apply Rmult_le_compat_r; lra.
Qed.
Lemma smooth4_nonneg a b M g g2 : a <= b -> smooth4 a b M g g2 -> 0 <= M.
Proof. intros Hab (g1 & g3 & g4 & D). destruct (D a) as (_ & _ & _ & _ & B); [lra|]. pose proof (Rabs_pos (g4 a)). lra. Qed.
Lemma smooth2_nonneg a b M g g1 : a <= b -> smooth2 a b M g g1 -> 0 <= M.
Proof. intros Hab (g2 & D). destruct (D a) as (_ & _ & B); [lra|]. pose proof (Rabs_pos (g2 a)). lra. Qed.

Lemma laplace_error XC YC (H K Mx My : R) (u uxx uyy : R -> R -> R) x y :
  0 < H -> 0 < K -> (x < XC)%nat -> (y < YC)%nat -> ~ on_rim XC YC x y ->
  smooth4 0 (INR (XC - 1) * H) Mx (fun x => u x (INR y * K)) (fun x => uxx x (INR y * K)) ->
  smooth4 0 (INR (YC - 1) * K) My (fun y => u (INR x * H) y) (fun y => uyy (INR x * H) y) ->
  Rabs (@laplace NumR H K (fun x y => u (INR x * H) (INR y * K)) x y - (uxx (INR x * H) (INR y * K) + uyy (INR x * H) (INR y * K)))
    <= (Mx * (H * H) + My * (K * K)) / 12.
Proof.
  intros PH PK Hx Hy Hr Sx Sy. unfold on_rim in Hr.
  assert (Bx := grid_lt XC x H ltac:(lia) ltac:(lia) PH). assert (By := grid_lt YC y K ltac:(lia) ltac:(lia) PK).
  assert (Px := grid_le XC (x - 1) H ltac:(lia) PH). assert (Qx := grid_le XC (x + 1) H ltac:(lia) PH).
  assert (Py := grid_le YC (y - 1) K ltac:(lia) PK). assert (Qy := grid_le YC (y + 1) K ltac:(lia) PK).
  rewrite grid_prev in Px, Py by lia. rewrite grid_next in Qx, Qy.
  pose proof (diff2_error _ _ _ _ _ (INR x * H) H Sx PH ltac:(lra) ltac:(lra)) as Ex.
  pose proof (diff2_error _ _ _ _ _ (INR y * K) K Sy PK ltac:(lra) ltac:(lra)) as Ey.
  unfold laplace. rewrite !grid_prev, !grid_next by lia. cbn beta in Ex, Ey.
  apply abs_inv in Ex. apply abs_inv in Ey. change (@nadd NumR) with Rplus. apply Rabs_le. lra.
Qed.

(** The solution v of the five-point scheme and the solution u of the Poisson equation *)
Lemma poisson_accuracy XC YC (H K Mx My : R) (f b u : R -> R -> R) (v : nat -> nat -> R) :
  (0 < XC)%nat -> (0 < YC)%nat -> 0 < H -> 0 < K ->
  poisson_pde (INR (XC - 1) * H) (INR (YC - 1) * K) Mx My f b u -> @poisson NumR XC YC H K f b v ->
  forall x y, (x < XC)%nat -> (y < YC)%nat ->
    Rabs (v x y - u (INR x * H) (INR y * K)) <=
      (Mx * (H * H) + My * (K * K)) / 12 * (INR x * H * (INR (XC - 1) * H - INR x * H) / 2).
Proof.
  intros PX PY PH PK (uxx & uyy & Sx & Sy & Eq & Bd) Hv x y Hx Hy.
  assert (Gx := fun x Hx => grid_le XC x H Hx PH). assert (Gy := fun y Hy => grid_le YC y K Hy PK).
  assert (Mxp : 0 <= Mx) by (apply (smooth4_nonneg _ _ _ _ _ (Rle_trans _ _ _ (proj1 (Gx x Hx)) (proj2 (Gx x Hx))) (Sx _ (Gy y Hy)))).
  assert (Myp : 0 <= My) by (apply (smooth4_nonneg _ _ _ _ _ (Rle_trans _ _ _ (proj1 (Gy y Hy)) (proj2 (Gy y Hy))) (Sy _ (Gx x Hx)))).
  assert (Rp : 0 <= (Mx * (H * H) + My * (K * K)) / 12).
  { pose proof (Rmult_le_pos _ _ Mxp (Rle_0_sqr H)) as A1. pose proof (Rmult_le_pos _ _ Myp (Rle_0_sqr K)) as A2. unfold Rsqr in A1, A2. lra. }
  pose proof (poisson_stable NumR_ord NumR_nat XC YC H K ltac:(cbn; lra) ltac:(cbn; lra) v (fun x y => u (INR x * H) (INR y * K))
    0 ((Mx * (H * H) + My * (K * K)) / 12)) as St.
  cbn [nleb NumR nabs nsub n0 T] in St. setoid_rewrite Rle_bool_iff in St.
  assert (A1 : forall x y, (x < XC)%nat -> (y < YC)%nat -> on_rim XC YC x y -> Rabs (v x y - u (INR x * H) (INR y * K)) <= 0).
  { intros x' y' Hx' Hy' Hr. rewrite (proj1 (Hv x' y' Hx' Hy') Hr). cbn [nmul NumR nofnat].
    rewrite (Bd _ _ (Gx x' Hx') (Gy y' Hy') (rim_coords XC YC x' y' H K Hr)). rewrite Rminus_diag_eq, Rabs_R0; lra. }
  assert (A2 : forall x y, (x < XC)%nat -> (y < YC)%nat -> ~ on_rim XC YC x y ->
    Rabs (@laplace NumR H K v x y - @laplace NumR H K (fun x y => u (INR x * H) (INR y * K)) x y) <= (Mx * (H * H) + My * (K * K)) / 12).
  { intros x' y' Hx' Hy' Hr. rewrite (proj2 (Hv x' y' Hx' Hy') Hr). cbn [nmul NumR nofnat].
    pose proof (laplace_error XC YC H K Mx My u uxx uyy x' y' PH PK Hx' Hy' Hr (Sx _ (Gy y' Hy')) (Sy _ (Gx x' Hx'))) as E.
    unfold on_rim in Hr. rewrite Eq in E by (apply grid_lt; auto; lia). rewrite Rabs_minus_sym. exact E. }
  specialize (St A1 A2 Rp x y Hx Hy).
  unfold bubble in St. cbn [nleb NumR nabs nsub n0 n1 T nadd nmul ndiv nofnat] in St.
  eapply Rle_trans; [exact St|]. right. field.
Qed.

(** The solution v of the implicit scheme and the solution u of the heat equation *)
Lemma heat_accuracy TC XC YC (HT HX HY Mt Mx My kmax : R) (k f b : R -> R -> R -> R) (t0 : R -> R -> R) (u : R -> R -> R -> R) (v : nat -> nat -> nat -> R) :
  (0 < TC)%nat -> (0 < XC)%nat -> (0 < YC)%nat -> 0 < HT -> 0 < HX -> 0 < HY ->
  (forall t x y, (t < TC)%nat -> (x < XC)%nat -> (y < YC)%nat -> 0 <= k (INR t * HT) (INR x * HX) (INR y * HY) <= kmax) ->
  heat_pde (INR (TC - 1) * HT) (INR (XC - 1) * HX) (INR (YC - 1) * HY) Mt Mx My k f b t0 u -> @heat NumR TC XC YC HT HX HY k f b t0 v ->
  forall t x y, (t < TC)%nat -> (x < XC)%nat -> (y < YC)%nat ->
    Rabs (v t x y - u (INR t * HT) (INR x * HX) (INR y * HY)) <=
      (Mt * HT / 2 + kmax * ((Mx * (HX * HX) + My * (HY * HY)) / 12)) * (INR t * HT).
Proof.
  intros PT PX PY P0 P1 P2 Pk (ut & uxx & uyy & St & Sx & Sy & Eq & Bi & Bd) Hv t x y Ht Hx Hy.
  assert (Gt := fun t Ht => grid_le TC t HT Ht P0). assert (Gx := fun x Hx => grid_le XC x HX Hx P1). assert (Gy := fun y Hy => grid_le YC y HY Hy P2).
  assert (Mtp : 0 <= Mt) by (apply (smooth2_nonneg _ _ _ _ _ (Rle_trans _ _ _ (proj1 (Gt t Ht)) (proj2 (Gt t Ht))) (St _ _ (Gx x Hx) (Gy y Hy)))).
  assert (Mxp : 0 <= Mx) by (apply (smooth4_nonneg _ _ _ _ _ (Rle_trans _ _ _ (proj1 (Gx x Hx)) (proj2 (Gx x Hx))) (Sx _ _ (Gt t Ht) (Gy y Hy)))).
  assert (Myp : 0 <= My) by (apply (smooth4_nonneg _ _ _ _ _ (Rle_trans _ _ _ (proj1 (Gy y Hy)) (proj2 (Gy y Hy))) (Sy _ _ (Gt t Ht) (Gx x Hx)))).
  set (m := (Mx * (HX * HX) + My * (HY * HY)) / 12).
  assert (Mp : 0 <= m).
  { unfold m. pose proof (Rmult_le_pos _ _ Mxp (Rle_0_sqr HX)) as A1. pose proof (Rmult_le_pos _ _ Myp (Rle_0_sqr HY)) as A2. unfold Rsqr in A1, A2. lra. }
  assert (Kp : 0 <= kmax) by (pose proof (Pk t x y Ht Hx Hy); lra).
  assert (Rp : 0 <= Mt * HT / 2 + kmax * m).
  { pose proof (Rmult_le_pos _ _ Kp Mp). assert (0 <= Mt * HT) by (apply Rmult_le_pos; lra). lra. }
  set (ug := fun t x y : nat => u (INR t * HT) (INR x * HX) (INR y * HY)).
  assert (Pk' : forall t x y, (t < TC)%nat -> (x < XC)%nat -> (y < YC)%nat -> @nleb NumR n0 (k (ft (N := NumR) HT t) (fx (N := NumR) HX x) (fy (N := NumR) HY y)) = true).
  { intros t' x' y' Ht' Hx' Hy'. apply Rle_bool_iff. apply (Pk t' x' y'); auto. }
  pose proof (heat_stable NumR_ord NumR_nat TC XC YC HT HX HY PT PX PY (Rlt_true 0 HT P0) ltac:(cbn; lra) ltac:(cbn; lra) k Pk' v ug
    0 (Mt * HT / 2 + kmax * m)) as Sb.
  cbn [nleb NumR nabs nsub n0 T] in Sb. setoid_rewrite Rle_bool_iff in Sb.
  assert (A1 : forall t x y, (t < TC)%nat -> (x < XC)%nat -> (y < YC)%nat -> t = 0%nat \/ on_rim XC YC x y -> Rabs (v t x y - ug t x y) <= 0).
  { intros t' x' y' Ht' Hx' Hy' Hr. destruct (Hv t' x' y' Ht' Hx' Hy') as (V1 & V2 & _). cbn [nmul NumR nofnat] in V1, V2.
    assert (E : v t' x' y' = ug t' x' y').
    { unfold ug. destruct (Nat.eq_dec t' 0) as [E0|E0].
      - rewrite (V1 E0), E0. simpl INR. rewrite Rmult_0_l. symmetry. apply Bi; auto.
      - destruct Hr as [Hr|Hr]; [contradiction|]. rewrite (V2 E0 Hr). symmetry. apply Bd; auto; [|now apply rim_coords].
        split; [apply Rmult_lt_0_compat; auto; apply lt_0_INR; lia|apply Gt; auto]. }
    rewrite E, Rminus_diag_eq, Rabs_R0; lra. }
  assert (A2 : forall t x y, (t < TC)%nat -> (x < XC)%nat -> (y < YC)%nat -> t <> 0%nat -> ~ on_rim XC YC x y ->
    Rabs (hop (N := NumR) HT HX HY k v t x y - hop (N := NumR) HT HX HY k ug t x y) <= Mt * HT / 2 + kmax * m).
  { intros t' x' y' Ht' Hx' Hy' Hn Hr. destruct (Hv t' x' y' Ht' Hx' Hy') as (_ & _ & V3). specialize (V3 Hn Hr).
    pose proof (laplace_error XC YC HX HY Mx My (u (INR t' * HT)) (uxx (INR t' * HT)) (uyy (INR t' * HT)) x' y' P1 P2 Hx' Hy' Hr
      (Sx _ _ (Gt t' Ht') (Gy y' Hy')) (Sy _ _ (Gt t' Ht') (Gx x' Hx'))) as E. fold m in E.
    assert (Gp := grid_le TC (t' - 1) HT ltac:(lia) P0). rewrite grid_prev in Gp by lia.
    pose proof (first_difference _ _ _ _ _ (INR t' * HT) HT (St _ _ (Gx x' Hx') (Gy y' Hy')) (Rlt_le _ _ P0) ltac:(lra) (proj2 (Gt t' Ht'))) as F. cbn beta in F.
    assert (Eq' := Eq (INR t' * HT) (INR x' * HX) (INR y' * HY)). unfold on_rim in Hr.
    specialize (Eq' (conj (Rmult_lt_0_compat _ _ (lt_0_INR t' ltac:(lia)) P0) (proj2 (Gt t' Ht')))
      (grid_lt XC x' HX ltac:(lia) ltac:(lia) P1) (grid_lt YC y' HY ltac:(lia) ltac:(lia) P2)).
    unfold hop, kf, ft, fx, fy in *. cbn [nmul NumR nofnat nsub ndiv nadd] in V3 |- *. rewrite V3.
    set (kk := k (INR t' * HT) (INR x' * HX) (INR y' * HY)) in *. set (ff := f (INR t' * HT) (INR x' * HX) (INR y' * HY)) in *.
    change (ug t') with (fun x y : nat => u (INR t' * HT) (INR x * HX) (INR y * HY)).
    set (lu := @laplace NumR HX HY (fun x y : nat => u (INR t' * HT) (INR x * HX) (INR y * HY)) x' y') in *.
    set (lv := @laplace NumR HX HY (v t') x' y') in *.
    set (du := uxx (INR t' * HT) (INR x' * HX) (INR y' * HY) + uyy (INR t' * HT) (INR x' * HX) (INR y' * HY)) in *.
    unfold ug. rewrite grid_prev by lia.
    set (g0 := u (INR t' * HT) (INR x' * HX) (INR y' * HY)) in *. set (gp := u (INR t' * HT - HT) (INR x' * HX) (INR y' * HY)) in *.
    assert (Ck : 0 <= kk <= kmax) by (apply Pk; auto).
    assert (B1 : Rabs (kk * (lu - du)) <= kmax * m).
    { rewrite Rabs_mult, (Rabs_pos_eq kk) by lra. apply Rmult_le_compat; [lra|apply Rabs_pos|lra|exact E]. }
    assert (B2 : Rabs ((g0 - gp) / HT - ut (INR t' * HT) (INR x' * HX) (INR y' * HY)) <= Mt * HT / 2).
    { set (z := ut (INR t' * HT) (INR x' * HX) (INR y' * HY)) in *.
      replace ((g0 - gp) / HT - z) with ((g0 - gp - HT * z) * / HT) by (field; lra).
      assert (0 < / HT) by (apply Rinv_0_lt_compat; lra). rewrite Rabs_mult, (Rabs_pos_eq (/ HT)) by lra.
      replace (Mt * HT / 2) with (Mt * HT ^ 2 / 2 * / HT) by (field; lra). apply Rmult_le_compat_r; lra. }
    rewrite Eq' in B2.
    replace (kk * lv + ff - kk * lv - ((g0 - gp) / HT - kk * lu)) with (kk * (lu - du) - ((g0 - gp) / HT - (kk * du + ff))) by ring.
    unfold Rminus at 1. eapply Rle_trans; [apply Rabs_triang|]. rewrite Rabs_Ropp. lra. }
  specialize (Sb A1 A2 Rp t x y Ht Hx Hy). unfold ft in Sb. cbn [nleb NumR nabs nsub n0 n1 T nadd nmul ndiv nofnat] in Sb.
  eapply Rle_trans; [exact Sb|]. right. ring.
Qed.
