(** The finite element example on the generated grid with square cells, order 1, against the solution of the differential equation. *)
From Coq Require Import List Arith Bool ZArith Lia Reals Lra.
From Verif Require Import Base BaseProofs Num NumInst OrdField UtilsModel UtilsSpec UtilsInst Spec SpecProofs VectorModel SparseModel MatI LUModel
  SimplexModel SimplexSpec MeshModel MeshSpec MeshHandle MeshDofSpec HyperSpec HyperProofs HyperGrid HyperGeo QuadModel DetSpec CholProofs LUSolve
  CGResult FemModel FemSpec FemProofs FemAssemble FemMesh FemResult FemHyper FemSolve FemLoad GridSpec GridMax AccuracySpec GridTaylor QuadProofs.
Import ListNotations.
Local Open Scope R_scope.

(** ** Second differences with two derivatives *)
Lemma smooth2_flip a b M g g1 : smooth2 a b M g g1 -> smooth2 (- b) (- a) M (fun s => g (- s)) (fun s => - g1 (- s)).
Proof.
  intros (g2 & D). exists (fun s => g2 (- s)). intros t Ht. destruct (D (- t) ltac:(lra)) as (D1 & D2 & B).
  assert (E : forall k : R -> R, forall l, derivable_pt_lim k (- t) l -> derivable_pt_lim (fun s => k (- s)) t (- l)).
  { intros k l Hk. replace (- t) with (-1 * t) in Hk by ring. pose proof (dl_comp_lin k 1 (-1) l t Hk) as A.
    refine (dl_ext _ _ _ _ _ _ _ A); [|ring]. intros s. replace (-1 * s) with (- s) by ring. ring. }
  split; [now apply E|]. split; auto. apply E in D2. pose proof (derivable_pt_lim_opp _ _ _ D2) as A. refine (dl_ext _ _ _ _ _ _ _ A); [reflexivity|ring].
Qed.
Lemma central2 a b M g g1 t d : smooth2 a b M g g1 -> 0 <= d -> a <= t - d -> t + d <= b -> Rabs (g (t + d) + g (t - d) - 2 * g t) <= M * d ^ 2.
Proof.
  intros S Hd Ha Hb. pose proof (first_difference a b M g g1 t d S Hd Ha ltac:(lra)) as E1.
  pose proof (first_difference _ _ M _ _ (- t) d (smooth2_flip _ _ _ _ _ S) Hd ltac:(lra) ltac:(lra)) as E2. cbn beta in E2.
  replace (- (- t - d)) with (t + d) in E2 by ring. rewrite Ropp_involutive in E2. apply abs_inv in E1, E2. apply Rabs_le. lra.
Qed.

(** ** The five point scheme with a defect *)
Lemma poisson_defect XC YC (H K Mx My dl : R) (f b u : R -> R -> R) (v : nat -> nat -> R) :
  (0 < XC)%nat -> (0 < YC)%nat -> 0 < H -> 0 < K -> 0 <= dl ->
  poisson_pde (INR (XC - 1) * H) (INR (YC - 1) * K) Mx My f b u ->
  (forall x y, (x < XC)%nat -> (y < YC)%nat -> on_rim XC YC x y -> v x y = b (INR x * H) (INR y * K)) ->
  (forall x y, (x < XC)%nat -> (y < YC)%nat -> ~ on_rim XC YC x y -> Rabs (@laplace NumR H K v x y - f (INR x * H) (INR y * K)) <= dl) ->
  forall x y, (x < XC)%nat -> (y < YC)%nat ->
    Rabs (v x y - u (INR x * H) (INR y * K)) <=
      ((Mx * (H * H) + My * (K * K)) / 12 + dl) * (INR x * H * (INR (XC - 1) * H - INR x * H) / 2).
Proof.
  intros PX PY PH PK Pd (uxx & uyy & Sx & Sy & Eq & Bd) Hr1 Hr2 x y Hx Hy.
  assert (Gx := fun x Hx => grid_le XC x H Hx PH). assert (Gy := fun y Hy => grid_le YC y K Hy PK).
  assert (Mxp : 0 <= Mx) by (apply (smooth4_nonneg _ _ _ _ _ (Rle_trans _ _ _ (proj1 (Gx x Hx)) (proj2 (Gx x Hx))) (Sx _ (Gy y Hy)))).
  assert (Myp : 0 <= My) by (apply (smooth4_nonneg _ _ _ _ _ (Rle_trans _ _ _ (proj1 (Gy y Hy)) (proj2 (Gy y Hy))) (Sy _ (Gx x Hx)))).
  assert (Rp : 0 <= (Mx * (H * H) + My * (K * K)) / 12 + dl).
  { pose proof (Rmult_le_pos _ _ Mxp (Rle_0_sqr H)) as A1. pose proof (Rmult_le_pos _ _ Myp (Rle_0_sqr K)) as A2. unfold Rsqr in A1, A2. lra. }
  pose proof (poisson_stable NumR_ord NumR_nat XC YC H K ltac:(cbn; lra) ltac:(cbn; lra) v (fun x y => u (INR x * H) (INR y * K))
    0 ((Mx * (H * H) + My * (K * K)) / 12 + dl)) as St.
  cbn [nleb NumR nabs nsub n0 T] in St. setoid_rewrite Rle_bool_iff in St.
  assert (A1 : forall x y, (x < XC)%nat -> (y < YC)%nat -> on_rim XC YC x y -> Rabs (v x y - u (INR x * H) (INR y * K)) <= 0).
  { intros x' y' Hx' Hy' Hr. rewrite (Hr1 x' y' Hx' Hy' Hr).
    rewrite (Bd _ _ (Gx x' Hx') (Gy y' Hy') (rim_coords XC YC x' y' H K Hr)). rewrite Rminus_diag_eq, Rabs_R0; lra. }
  assert (A2 : forall x y, (x < XC)%nat -> (y < YC)%nat -> ~ on_rim XC YC x y ->
    Rabs (@laplace NumR H K v x y - @laplace NumR H K (fun x y => u (INR x * H) (INR y * K)) x y) <= (Mx * (H * H) + My * (K * K)) / 12 + dl).
  { intros x' y' Hx' Hy' Hr. pose proof (Hr2 x' y' Hx' Hy' Hr) as D.
    pose proof (laplace_error XC YC H K Mx My u uxx uyy x' y' PH PK Hx' Hy' Hr (Sx _ (Gy y' Hy')) (Sy _ (Gx x' Hx'))) as E.
    unfold on_rim in Hr. rewrite Eq in E by (apply grid_lt; auto; lia). apply abs_inv in D, E. apply Rabs_le. lra. }
  specialize (St A1 A2 Rp x y Hx Hy).
  unfold bubble in St. cbn [nleb NumR nabs nsub n0 n1 T nadd nmul ndiv nofnat] in St.
  eapply Rle_trans; [exact St|]. right. field.
Qed.

(** ** The mean over the six edge midpoints *)
Section Core.
Variables (e0 e1 : nat) (h ox oy Mx My Fx Fy Fd : R) (f g u : list R -> R).
Hypothesis H0 : (1 <= e0)%nat.
Hypothesis H1 : (1 <= e1)%nat.
Hypothesis Ph : 0 < h.
Notation W := (INR e1 * h).
Notation L := (INR e0 * h).
Hypothesis Hf : bent W L Fx Fy Fd (fun x y => f [ox + x; oy + y]).
Lemma mean_close i j : (1 <= i < e0)%nat -> (1 <= j < e1)%nat ->
  Rabs (@mean6 NumR h ox oy f i j - f [ox + INR j * h; oy + INR i * h]) <= (Fx + Fy + Fd) * h ^ 2 / 24.
Proof.
  intros Hi Hj. unfold mean6. cbn zeta. cbn [nadd nsub nmul ndiv n1 nofnat NumR]. change (T NumR) with R.
  assert (Gi : h <= INR i * h <= L - h).
  { assert (1 <= INR i) by (change 1 with (INR 1); apply le_INR; lia). assert (INR i + 1 <= INR e0) by (rewrite <- S_INR; apply le_INR; lia). nra. }
  assert (Gj : h <= INR j * h <= W - h).
  { assert (1 <= INR j) by (change 1 with (INR 1); apply le_INR; lia). assert (INR j + 1 <= INR e1) by (rewrite <- S_INR; apply le_INR; lia). nra. }
  set (x := INR j * h) in *. set (y := INR i * h) in *.
  replace (h * INR j) with x by (unfold x; ring). replace (h * INR i) with y by (unfold y; ring).
  set (d := h / (1 + 1)). assert (Ed : d = h / 2) by (unfold d; lra).
  destruct Hf as (Hx & Hy & Hz).
  destruct (Hx y ltac:(lra)) as (f1 & S1). pose proof (central2 _ _ _ _ _ x d S1 ltac:(lra) ltac:(lra) ltac:(lra)) as E1.
  destruct (Hy x ltac:(lra)) as (f2 & S2). pose proof (central2 _ _ _ _ _ y d S2 ltac:(lra) ltac:(lra) ltac:(lra)) as E2.
  destruct (Hz x y d ltac:(lra) ltac:(lra) ltac:(lra)) as (f3 & S3). pose proof (central2 _ _ _ _ _ 0 d S3 ltac:(lra) ltac:(lra) ltac:(lra)) as E3.
  cbn beta in E1, E2, E3. rewrite Rplus_0_l, Rplus_0_r, Rplus_0_r in E3. replace (x + (0 - d)) with (x - d) in E3 by ring. replace (y + (0 - d)) with (y - d) in E3 by ring.
  replace (ox + x + d) with (ox + (x + d)) by ring. replace (ox + x - d) with (ox + (x - d)) by ring. replace (oy + y + d) with (oy + (y + d)) by ring. replace (oy + y - d) with (oy + (y - d)) by ring.
  replace (d ^ 2) with (h ^ 2 / 4) in * by (rewrite Ed; field).
  apply abs_inv in E1, E2, E3. apply Rabs_le.
  replace ((1 + 1) * (1 + 1 + 1)) with 6 by ring. lra.
Qed.
Hypothesis Hu : poisson_pde W L Mx My (fun x y => - f [ox + x; oy + y]) (fun x y => g [ox + x; oy + y]) (fun x y => u [ox + x; oy + y]).
(** node values v (row, column) that satisfy the scheme up to rho with a load q that is within kp of h^2 times the mean *)
Lemma fem_core (v q : nat -> nat -> R) (kp rho : R) : 0 <= kp -> 0 <= rho ->
  (forall i j, (i <= e0)%nat -> (j <= e1)%nat -> on_frame e0 e1 i j = true -> v i j = g [ox + h * INR j; oy + h * INR i]) ->
  (forall i j, (1 <= i < e0)%nat -> (1 <= j < e1)%nat -> Rabs (q i j - h * h * @mean6 NumR h ox oy f i j) <= kp /\
    Rabs (4 * v i j - v (i - 1)%nat j - v (i + 1)%nat j - v i (j - 1)%nat - v i (j + 1)%nat - q i j) <= rho) ->
  forall i j, (i <= e0)%nat -> (j <= e1)%nat -> let X := INR j * h in
    Rabs (v i j - u [ox + h * INR j; oy + h * INR i]) <= ((Mx + My) * h ^ 2 / 12 + (Fx + Fy + Fd) * h ^ 2 / 24 + (kp + rho) / h ^ 2) * (X * (W - X) / 2).
Proof.
  intros Pk Pr Hb Hin i j Hi Hj X.
  assert (Hr : forall x y, (x < e1 + 1)%nat -> (y < e0 + 1)%nat -> (on_rim (e1 + 1) (e0 + 1) x y <-> on_frame e0 e1 y x = true)).
  { intros x y Hx Hy. unfold on_rim, on_frame. rewrite !orb_true_iff, !Nat.eqb_eq. lia. }
  assert (P2 : 0 < h ^ 2) by (apply pow_lt; lra).
  assert (Pm : 0 <= (kp + rho) / h ^ 2) by (apply Rmult_le_pos; [lra|left; now apply Rinv_0_lt_compat]).
  assert (EW : INR (e1 + 1 - 1) * h = W) by (replace (e1 + 1 - 1)%nat with e1 by lia; reflexivity).
  assert (EL : INR (e0 + 1 - 1) * h = L) by (replace (e0 + 1 - 1)%nat with e0 by lia; reflexivity).
  assert (Fp : 0 <= (Fx + Fy + Fd) * h ^ 2 / 24).
  { destruct Hf as (Hx & Hy & Hz). assert (0 <= W) by (apply Rmult_le_pos; [apply pos_INR|lra]). assert (0 <= L) by (apply Rmult_le_pos; [apply pos_INR|lra]).
    destruct (Hx 0 ltac:(lra)) as (f1 & S1). destruct (Hy 0 ltac:(lra)) as (f2 & S2). destruct (Hz 0 0 0 ltac:(lra) ltac:(lra) ltac:(lra)) as (f3 & S3).
    apply smooth2_nonneg in S1; [|lra]. apply smooth2_nonneg in S2; [|lra]. apply smooth2_nonneg in S3; [|lra].
    pose proof (Rmult_le_pos (Fx + Fy + Fd) (h ^ 2) ltac:(lra) ltac:(lra)). lra. }
  pose proof (poisson_defect (e1 + 1) (e0 + 1) h h Mx My ((Fx + Fy + Fd) * h ^ 2 / 24 + (kp + rho) / h ^ 2) _ _ _ (fun x y => v y x) ltac:(lia) ltac:(lia) Ph Ph ltac:(lra)
    ltac:(rewrite EW, EL; exact Hu)) as D.
  assert (D1 : forall x y, (x < e1 + 1)%nat -> (y < e0 + 1)%nat -> on_rim (e1 + 1) (e0 + 1) x y -> v y x = g [ox + INR x * h; oy + INR y * h]).
  { intros x y Hx Hy Hb'. apply Hr in Hb'; auto. rewrite (Rmult_comm (INR x)), (Rmult_comm (INR y)). apply Hb; auto; lia. }
  assert (D2 : forall x y, (x < e1 + 1)%nat -> (y < e0 + 1)%nat -> ~ on_rim (e1 + 1) (e0 + 1) x y ->
    Rabs (@laplace NumR h h (fun x y => v y x) x y - - f [ox + INR x * h; oy + INR y * h]) <= (Fx + Fy + Fd) * h ^ 2 / 24 + (kp + rho) / h ^ 2).
  { intros x y Hx Hy Hn. unfold on_rim in Hn. assert (Iy : (1 <= y < e0)%nat) by lia. assert (Ix : (1 <= x < e1)%nat) by lia.
    destruct (Hin y x Iy Ix) as (B1 & B2). pose proof (mean_close y x Iy Ix) as B3.
    unfold laplace, diff2. cbn [nadd nsub nmul ndiv n1 NumR]. change (T NumR) with R.
    set (m := @mean6 NumR h ox oy f y x : R) in *. set (F := f [ox + INR x * h; oy + INR y * h]) in *. clearbody m F.
    set (r := 4 * v y x - v (y - 1)%nat x - v (y + 1)%nat x - v y (x - 1)%nat - v y (x + 1)%nat - q y x) in *.
    set (k := q y x - h * h * m) in *.
    assert (Bk : Rabs ((k + r) / h ^ 2) <= (kp + rho) / h ^ 2).
    { unfold Rdiv. rewrite Rabs_mult, (Rabs_pos_eq (/ h ^ 2)) by (left; now apply Rinv_0_lt_compat). apply Rmult_le_compat_r; [left; now apply Rinv_0_lt_compat|].
      eapply Rle_trans; [apply Rabs_triang|]. lra. }
    match goal with |- Rabs ?t <= _ => replace t with (- (m - F) - (k + r) / h ^ 2) by (unfold k, r; field; lra) end.
    apply abs_inv in B3, Bk. apply Rabs_le. lra. }
  specialize (D D1 D2 j i ltac:(lia) ltac:(lia)). cbn beta in D. rewrite EW in D. fold X in D.
  rewrite (Rmult_comm h (INR j)), (Rmult_comm h (INR i)). fold X. eapply Rle_trans; [exact D|]. right. field. lra.
Qed.
End Core.

(** ** The program *)
Section Program.
Variables (e0 e1 : nat) (s0 s1 ox oy h drop Mx My Fx Fy Fd : R) (f g u : list R -> R).
Hypothesis H0 : (1 <= e0)%nat.
Hypothesis H1 : (1 <= e1)%nat.
Hypothesis Hx : s0 / INR e0 = h.
Hypothesis Hy : s1 / INR e1 = h.
Hypothesis Ht : / 2 ^ 52 < h.
Hypothesis Hd : 0 <= drop <= 49 / 100.
Notation w := (e1 + 1)%nat.
Notation n := ((e0 + 1) * w)%nat.
Notation W := (INR e1 * h).
Notation L := (INR e0 * h).
Hypothesis Hf : bent W L Fx Fy Fd (fun x y => f [ox + x; oy + y]).
Hypothesis Hu : poisson_pde W L Mx My (fun x y => - f [ox + x; oy + y]) (fun x y => g [ox + x; oy + y]) (fun x y => u [ox + x; oy + y]).
Lemma kapR : 4999 / 10000 <= @kap NumR <= 1 / 2.
Proof. unfold kap. cbn [nmul ndiv nadd n1 NumR]. rewrite decR. lra. Qed.
Lemma Ph : 0 < h.
Proof. assert (0 < / 2 ^ 52) by (apply Rinv_0_lt_compat, pow_lt; lra). lra. Qed.
Lemma tiny_h : @tiny NumR h = false.
Proof.
  unfold tiny. cbn [nleb nabs neps NumR]. pose proof Ph. rewrite Rabs_pos_eq by lra. destruct (Rle_bool h (/ 2 ^ 52)) eqn:E; auto. apply Rle_bool_iff in E. lra.
Qed.
Lemma drop_0 : @nleb NumR n0 drop = true.
Proof. cbn [nleb NumR n0]. apply Rle_bool_iff. lra. Qed.
Lemma drop_k : @nltb NumR drop kap = true.
Proof. cbn [nltb NumR]. apply Rlt_true. pose proof kapR. lra. Qed.
Notation sys sm s := (hyper_residual NumR_ord NumR_nat e0 e1 s0 s1 ox oy h drop H0 H1 Hx Hy tiny_h drop_0 drop_k f g sm s).
(** a vector x with residuals of at most rho *)
Lemma near (a : nat -> nat -> R) (b x : nat -> R) (q : nat -> nat -> R) (mid rho : R) : 0 <= rho -> @kap NumR <= mid ->
  (forall i j, (1 <= i < e0)%nat -> (1 <= j < e1)%nat -> @kap NumR * Rabs (q i j - h * h * @mean6 NumR h ox oy f i j) <= drop + drop + drop) ->
  (forall i j, (i <= e0)%nat -> (j <= e1)%nat -> let y k l := if on_frame e0 e1 k l then g (@site NumR ox oy h k l) else x (k * w + l)%nat in
      @mulvec NumR n a x (i * w + j)%nat - b (i * w + j)%nat =
       if on_frame e0 e1 i j then mid * (x (i * w + j)%nat - g (@site NumR ox oy h i j))
       else (@kap NumR + @kap NumR) * ((1 + 1 + 1 + 1) * y i j - y (i - 1)%nat j - y (i + 1)%nat j - y i (j - 1)%nat - y i (j + 1)%nat - q i j)) ->
  (forall i, (i < n)%nat -> Rabs (@mulvec NumR n a x i - b i) <= rho) ->
  forall i j, (i <= e0)%nat -> (j <= e1)%nat -> let X := INR j * h in
    Rabs (x (i * w + j)%nat - u [ox + h * INR j; oy + h * INR i]) <=
      if on_frame e0 e1 i j then 21 / 10 * rho
      else ((Mx + My) * h ^ 2 / 12 + (Fx + Fy + Fd) * h ^ 2 / 24 + (7 * drop + 11 / 10 * rho) / h ^ 2) * (X * (W - X) / 2).
Proof.
  intros Pr Hm Hq Hres Hb i j Hi Hj X. pose proof kapR as K.
  assert (Idx : forall i j, (i <= e0)%nat -> (j <= e1)%nat -> (i * w + j < n)%nat) by (intros; nia).
  set (y := fun k l => if on_frame e0 e1 k l then g (@site NumR ox oy h k l) else x (k * w + l)%nat) in *.
  assert (C : Rabs (y i j - u [ox + h * INR j; oy + h * INR i]) <= ((Mx + My) * h ^ 2 / 12 + (Fx + Fy + Fd) * h ^ 2 / 24 + (7 * drop + 11 / 10 * rho) / h ^ 2) * (X * (W - X) / 2)).
  { apply (fem_core e0 e1 h ox oy Mx My Fx Fy Fd f g u H0 H1 Ph Hf Hu y q (7 * drop) (11 / 10 * rho)); auto; try lra.
    - intros k l Hk Hl E. unfold y. rewrite E. unfold site. cbn [nadd nmul nofnat NumR]. reflexivity.
    - intros k l Hk Hl. split.
      + specialize (Hq k l Hk Hl). pose proof (Rabs_pos (q k l - h * h * @mean6 NumR h ox oy f k l)) as P. set (t := Rabs (q k l - h * h * @mean6 NumR h ox oy f k l)) in *.
        assert (4999 / 10000 * t <= @kap NumR * t) by (apply Rmult_le_compat_r; lra). lra.
      + assert (E : on_frame e0 e1 k l = false).
        { unfold on_frame. rewrite !orb_false_iff, !Nat.eqb_neq. lia. }
        pose proof (Hb (k * w + l)%nat (Idx k l ltac:(lia) ltac:(lia))) as B. rewrite (Hres k l ltac:(lia) ltac:(lia)) in B. cbn zeta in B. rewrite E in B.
        match type of B with Rabs (_ * ?t) <= _ => set (t0 := t) in B end.
        match goal with |- Rabs ?t <= _ => replace t with t0 by (unfold t0, y; ring) end.
        rewrite Rabs_mult, (Rabs_pos_eq (@kap NumR + @kap NumR)) in B by lra. pose proof (Rabs_pos t0).
        assert (9998 / 10000 * Rabs t0 <= (@kap NumR + @kap NumR) * Rabs t0) by (apply Rmult_le_compat_r; lra). lra. }
  destruct (on_frame e0 e1 i j) eqn:E.
  - pose proof (Hb (i * w + j)%nat (Idx i j Hi Hj)) as B. rewrite (Hres i j Hi Hj) in B. cbn zeta in B. rewrite E in B.
    assert (Eu : u [ox + h * INR j; oy + h * INR i] = g (@site NumR ox oy h i j)).
    { destruct Hu as (uxx & uyy & _ & _ & _ & Bd). rewrite (Rmult_comm h (INR j)), (Rmult_comm h (INR i)). unfold site. cbn [nadd nmul nofnat NumR]. rewrite (Rmult_comm h (INR j)), (Rmult_comm h (INR i)).
      assert (Pi : 0 <= INR i <= INR e0) by (split; [apply pos_INR|now apply le_INR]). assert (Pj : 0 <= INR j <= INR e1) by (split; [apply pos_INR|now apply le_INR]). pose proof Ph.
      apply (Bd (INR j * h) (INR i * h)); try nra.
      unfold on_frame in E. rewrite !orb_true_iff, !Nat.eqb_eq in E. destruct E as [[[->| ->]| ->]| ->]; rewrite ?Rmult_0_l; auto. }
    rewrite Eu. rewrite Rabs_mult, (Rabs_pos_eq mid) in B by lra. set (t := x (i * w + j)%nat - g (@site NumR ox oy h i j)) in *. pose proof (Rabs_pos t).
    assert (4999 / 10000 * Rabs t <= mid * Rabs t) by (apply Rmult_le_compat_r; lra). lra.
  - unfold y in C. rewrite E in C. exact C.
Qed.
Theorem scheme sm s : hc_generate (N := NumR) e0 e1 [s0; s1] [ox; oy] = Ok sm -> m_prepare sm = Ok s ->
  returns (fem_system (N := NumR) drop 1 f g s) (fun r => exists a b, MatI.holds (fst (snd r)) n n a /\ reads (snd (snd r)) n b /\ symmetric2 n a /\ pos_def n a /\
    forall x, (forall i, (i < n)%nat -> @mulvec NumR n a x i = b i) ->
      forall i j, (i <= e0)%nat -> (j <= e1)%nat -> let X := INR j * h in
        Rabs (x (i * w + j)%nat - u [ox + h * INR j; oy + h * INR i]) <= ((Mx + My) * h ^ 2 / 12 + (Fx + Fy + Fd) * h ^ 2 / 24 + 7 * drop / h ^ 2) * (X * (W - X) / 2)).
Proof.
  intros Eg Ep. eapply returns_mono; [apply (sys sm s Eg Ep)|]. cbn beta zeta. intros r (a & b & q & mid & HA & HB & Hs & Hp & Hm & _ & Hq & Hres).
  exists a, b. split; auto. split; auto. split; auto. split; auto. intros x Hsol i j Hi Hj. set (X := INR j * h).
  cbn [nleb NumR nmul nabs nsub nadd] in Hm, Hq. apply Rle_bool_iff in Hm.
  assert (Hq' : forall i j, (1 <= i < e0)%nat -> (1 <= j < e1)%nat -> @kap NumR * Rabs (q i j - h * h * @mean6 NumR h ox oy f i j) <= drop + drop + drop) by (intros; now apply Rle_bool_iff, Hq).
  pose proof (near a b x q mid 0 (Rle_refl 0) Hm Hq' (Hres x)) as C. specialize (C ltac:(intros k Hk; rewrite Hsol by auto; rewrite Rminus_diag_eq, Rabs_R0; lra) i j Hi Hj).
  cbn zeta in C. fold X in C. destruct (on_frame e0 e1 i j) eqn:E.
  - eapply Rle_trans; [exact C|]. rewrite Rmult_0_r. 
    pose proof Ph as P. assert (Pj : 0 <= INR j <= INR e1) by (split; [apply pos_INR|now apply le_INR]).
    assert (BX : 0 <= X * (W - X) / 2). { unfold X. assert (0 <= INR j * h) by (apply Rmult_le_pos; lra). assert (0 <= (INR e1 - INR j) * h) by (apply Rmult_le_pos; lra).
      pose proof (Rmult_le_pos _ _ H H2) as P2. lra. }
    apply Rmult_le_pos; auto.
    assert (P2 : 0 < h ^ 2) by (apply pow_lt; lra).
    assert (W0 : 0 <= W) by (apply Rmult_le_pos; [apply pos_INR|lra]). assert (L0 : 0 <= L) by (apply Rmult_le_pos; [apply pos_INR|lra]).
    destruct Hf as (A1 & A2 & A3). destruct (A1 0 ltac:(lra)) as (f1 & S1). destruct (A2 0 ltac:(lra)) as (f2 & S2). destruct (A3 0 0 0 ltac:(lra) ltac:(lra) ltac:(lra)) as (f3 & S3).
    apply smooth2_nonneg in S1; [|lra]. apply smooth2_nonneg in S2; [|lra]. apply smooth2_nonneg in S3; [|lra].
    destruct Hu as (uxx & uyy & B1 & B2 & _). pose proof (smooth4_nonneg _ _ _ _ _ W0 (B1 0 ltac:(lra))) as M1. pose proof (smooth4_nonneg _ _ _ _ _ L0 (B2 0 ltac:(lra))) as M2.
    assert (0 <= 7 * drop / h ^ 2) by (apply Rmult_le_pos; [lra|left; now apply Rinv_0_lt_compat]).
    pose proof (Rmult_le_pos (Fx + Fy + Fd) (h ^ 2) ltac:(lra) ltac:(lra)). pose proof (Rmult_le_pos (Mx + My) (h ^ 2) ltac:(lra) ltac:(lra)). lra.
  - replace (7 * drop + 11 / 10 * 0) with (7 * drop) in C by ring. exact C.
Qed.
(** one component of a small residual *)
Lemma comp_small k (r : nat -> R) (e : R) : 0 <= e -> @bigsum NumR k (fun i => r i * r i) <= e * e -> forall i, (i < k)%nat -> Rabs (r i) <= e.
Proof.
  intros He Hs i Hi. pose proof (SorConv.term_le_sum NumR_ord k (fun i => r i * r i) i Hi) as T1. cbn [nleb NumR n0] in T1.
  assert (T2 : Rle_bool (r i * r i) (@bigsum NumR k (fun i => r i * r i)) = true) by (apply T1; intros; apply Rle_bool_iff; pose proof (Rle_0_sqr (r i0)) as Q; exact Q).
  apply Rle_bool_iff in T2. assert (Q : Rsqr (r i) <= Rsqr e) by (unfold Rsqr; lra). apply Rsqr_le_abs_0 in Q. now rewrite (Rabs_pos_eq e) in Q.
Qed.
Theorem program sm s solver sol : (solver = 1 \/ solver = 2)%nat -> hc_generate (N := NumR) e0 e1 [s0; s1] [ox; oy] = Ok sm -> m_prepare sm = Ok s ->
  returns (fem_handle (N := NumR) drop 1 solver f g sol s) (fun r =>
    (fo_it r < 1024)%nat \/ (solver = 2%nat /\ (n <= 1024)%nat /\ exists k, (k < n)%nat /\ nth k (fo_B r) 0 <> 0) ->
    length (fo_data r) = n /\
    forall i j, (i <= e0)%nat -> (j <= e1)%nat -> exists v, nth_error (fo_data r) (i * w + j) = Some (ox + h * INR j, oy + h * INR i, v) /\
      let X := INR j * h in Rabs (v - u [ox + h * INR j; oy + h * INR i]) <=
        if on_frame e0 e1 i j then 21 / 100000
        else ((Mx + My) * h ^ 2 / 12 + (Fx + Fy + Fd) * h ^ 2 / 24 + (7 * drop + 11 / 100000) / h ^ 2) * (X * (W - X) / 2)).
Proof.
  intros Hso Eg Ep. destruct (sys sm s Eg Ep) as (r0 & Er & a & b & q & mid & HA & HB & Hs & Hp & Hm & Hdg & Hq & Hres).
  destruct (hyper_connected NumR_ord NumR_nat e0 e1 s0 s1 ox oy sm H0 H1 Eg) as (Hc & _).
  assert (LV : length (@hcV NumR e0 e1 s0 s1 ox oy) = n) by (unfold hcV; now rewrite map_length, seq_length).
  assert (Hne : @hcV NumR e0 e1 s0 s1 ox oy <> []) by (intros E; rewrite E in LV; cbn in LV; nia).
  pose proof (handle_connected NumR_ord NumR_nat NumR_sqrt drop 1 solver f g sol _ _ sm s (or_introl eq_refl) ltac:(lia) Hc Ep Hne
    (hproper NumR_ord NumR_nat e0 e1 s0 s1 ox oy h drop H0 H1 Hx Hy tiny_h drop_0 drop_k)) as P.
  unfold fem_handle in P |- *. rewrite Er in P |- *. destruct r0 as (s1' & A & B). cbn [bind fst snd] in *.
  assert (Hn : (0 < n)%nat) by nia.
  cbn [nleb NumR nmul nabs nsub nadd] in Hm, Hq, Hdg. apply Rle_bool_iff in Hm.
  assert (Hq' : forall i j, (1 <= i < e0)%nat -> (1 <= j < e1)%nat -> @kap NumR * Rabs (q i j - h * h * @mean6 NumR h ox oy f i j) <= drop + drop + drop) by (intros; now apply Rle_bool_iff, Hq).
  assert (Sv : returns (fem_solve (N := NumR) solver A B) (fun xi => length (fst xi) = n /\
    ((snd xi < 1024)%nat \/ (solver = 2%nat /\ (n <= 1024)%nat /\ exists k, (k < n)%nat /\ nth k B 0 <> 0) -> @residual2 NumR n a B (fst xi) <= 1 / 10 ^ 4 * (1 / 10 ^ 4)))).
  { assert (Q : forall t : R, @nltb NumR t (nmul (dec 1 4) (dec 1 4)) = true -> t <= 1 / 10 ^ 4 * (1 / 10 ^ 4)).
    { intros t Q. rewrite !decR in Q. cbn [nltb nmul NumR] in Q. change (t < 1 / 10 ^ 4 * (1 / 10 ^ 4)) in Q || (apply (olt_le NumR_ord) in Q; cbn [nleb NumR] in Q; apply Rle_bool_iff in Q; lra). }
    destruct Hso as [->| ->].
    - destruct (solve_01 NumR_ord A B n a HA (proj1 HB) Hn) as (_ & (x & it & -> & Lx & _ & Hit)). exists (x, it). split; auto. cbn [fst snd]. split; auto.
      intros [Hi|(E & _)]; [apply Q, Hit, Hi|discriminate].
    - pose proof (solve_2 NumR_ord A B n a HA (proj1 HB) Hn) as P2. destruct (fem_solve 2 A B) as [[x it]| |e| | |] eqn:EX; try (destruct P2; fail).
      + exists (x, it). split; auto. cbn [post fst snd] in *. destruct P2 as (_ & Lx & _ & Hit & Hfin). split; auto. intros [Hi|(_ & Hle & Hb)]; [apply Q, Hit, Hi|]. apply Q, Hfin; auto.
      + cbn [post] in P2. destruct P2 as (_ & i & Hi & Hti). exfalso. specialize (Hdg i Hi). apply Rle_bool_iff in Hdg. unfold tiny in Hti. cbn [nleb nabs neps NumR] in Hti. apply Rle_bool_iff in Hti.
        pose proof kapR as K. rewrite Rabs_pos_eq in Hti by lra. assert (/ 2 ^ 52 < 4999 / 10000) by lra. lra. }
  destruct Sv as ((X & it) & EX & LX & HX). cbn [fst snd] in *.
  match type of P with post ?m _ _ => destruct m as [r| | | | |] eqn:Em; try (destruct P; fail) end; cbn [post] in P.
  2: { exfalso. destruct P as (_ & s2 & A2 & B2 & E1 & E2). inversion E1; subst s2 A2 B2. congruence. }
  exists r. split; auto. intros Hdone. destruct P as (V & D & bd & x & HD & Esys & Esol & Hrx & Hout).
  destruct (no_first _ _ _ _ _ (di_nodes _ _ _ _ _ _ _ _ HD) eq_refl) as (-> & ->).
  inversion Esys as [[E1 E2 E3]]. rewrite <- E2, <- E3, EX in Esol. inversion Esol as [[E4 E5]]. rewrite <- E5, <- E3 in Hdone. specialize (HX Hdone). rewrite <- E4 in Hrx. destruct Hrx as (_ & Hrx).
  rewrite LV in Hrx. rewrite (ou_data _ _ _ _ _ _ _ _ Hout). split; [now rewrite map_length, seq_length|].
  intros i j Hi Hj. assert (Hk : (i * w + j < n)%nat) by nia. exists (x (i * w + j)%nat). split.
  - rewrite nth_error_map. rewrite (nth_error_nth' _ 0%nat) by (rewrite seq_length, LV; exact Hk). rewrite seq_nth by (rewrite LV; exact Hk). cbn [option_map Nat.add].
    rewrite (V_is (N := NumR) e0 e1 s0 s1 ox oy h Hx Hy), gV_nth by nia. rewrite (gpos_at e0) by (auto; lia). reflexivity.
  - pose proof (near a b x q mid (1 / 10000) ltac:(lra) Hm Hq' (Hres x)) as C. cbn zeta.
    replace (21 / 100000) with (21 / 10 * (1 / 10000)) by field. replace (11 / 100000) with (11 / 10 * (1 / 10000)) by field. apply C; auto.
    intros k Hk'. unfold residual2 in HX. assert (P4 : 0 <= 1 / 10 ^ 4) by (cbn [pow]; lra). destruct HB as (_ & HB).
    pose proof (comp_small n (fun i => nth i B 0 - @mulvec NumR n a (fun j => nth j X 0) i) (1 / 10 ^ 4) P4 HX k Hk') as S.
    rewrite Rabs_minus_sym. cbn beta in S. rewrite <- (HB k Hk').
    replace (@mulvec NumR n a x k) with (@mulvec NumR n a (fun j => nth j X 0) k) by (unfold mulvec; apply bigsum_ext; intros l Hl; f_equal; exact (Hrx l Hl)).
    eapply Rle_trans; [exact S|]. cbn [pow]. lra.
Qed.
End Program.
