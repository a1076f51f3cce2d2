(** Property C79: how far the numbers written by the finite element program are from the solution of the differential equation, for
    the generated grid with square cells and order 1.  Exact real arithmetic; rounding is the subject of C72 - C75. *)
From Coq Require Import List Arith Bool ZArith Lia Reals Lra FunctionalExtensionality.
From Verif Require Import Base BaseProofs Num NumInst OrdField UtilsInst Spec MatI LUModel MeshModel HyperSpec DetSpec CholProofs FemModel ExampleBase FemSpec FemHyper FemLoad
  AccuracySpec GridTaylor FemAccuracy PropAccuracy.
Import ListNotations.
Local Open Scope nat_scope.

(** ** C79.  examples/poisson/fem.cpp with a generated mesh *)
(** HyperCube with e0 rows and e1 columns of square cells of width h, order 1, any source f: the system has a symmetric positive
    definite matrix; its rows are, up to factors mid and 2 kap, the prescribed values on the frame and the five point scheme inside,
    where the load q is, up to the dropped entries, h^2 times the mean of f over the midpoints of the six edges at the node. *)
Theorem C79_system (N : Num) (HO : OrdFieldLaws N) (HN : UtilsSpec.NatLaws N) : forall e0 e1 (s0 s1 ox oy h drop : N), 1 <= e0 -> 1 <= e1 ->
  (s0 / nofnat e0)%num = h -> (s1 / nofnat e1)%num = h -> tiny h = false -> nleb n0 drop = true -> nltb drop kap = true ->
  forall f g sm s, hc_generate e0 e1 [s0; s1] [ox; oy] = Ok sm -> m_prepare sm = Ok s ->
  returns (fem_system drop 1 f g s) (fun r => let w := e1 + 1 in let n := (e0 + 1) * w in exists a b q mid,
    MatI.holds (fst (snd r)) n n a /\ reads (snd (snd r)) n b /\ symmetric2 n a /\ pos_def n a /\ nleb kap mid = true /\ (forall i, i < n -> nleb kap (a i i) = true) /\
    (forall i j, 1 <= i < e0 -> 1 <= j < e1 -> nleb (kap * nabs (q i j - h * h * mean6 h ox oy f i j))%num (drop + drop + drop)%num = true) /\
    forall x i j, i <= e0 -> j <= e1 -> let y k l := if on_frame e0 e1 k l then g (site ox oy h k l) else x (k * w + l) in
      (mulvec n a x (i * w + j)%nat - b (i * w + j)%nat =
       if on_frame e0 e1 i j then mid * (x (i * w + j)%nat - g (site ox oy h i j))
       else (kap + kap) * ((n1 + n1 + n1 + n1) * y i j - y (i - 1)%nat j - y (i + 1)%nat j - y i (j - 1)%nat - y i (j + 1)%nat - q i j))%num).
Proof. intros e0 e1 s0 s1 ox oy h drop H0 H1 Hx Hy Ht Hd0 Hd. exact (hyper_residual HO HN e0 e1 s0 s1 ox oy h drop H0 H1 Hx Hy Ht Hd0 Hd). Qed.

Local Open Scope R_scope.
(** If u solves  - u_xx - u_yy = f  with u = g on the boundary of the rectangle, the fourth derivatives of u bounded by Mx, My and the
    second derivatives of f by Fx, Fy, Fd, then the solution of the system is of second order, apart from the dropped entries. *)
Theorem C79_scheme : forall e0 e1 (s0 s1 ox oy h drop Mx My Fx Fy Fd : R) (f g u : list R -> R), (1 <= e0)%nat -> (1 <= e1)%nat ->
  s0 / INR e0 = h -> s1 / INR e1 = h -> / 2 ^ 52 < h -> 0 <= drop <= 49 / 100 ->
  let W := INR e1 * h in let L := INR e0 * h in
  bent W L Fx Fy Fd (fun x y => f [ox + x; oy + y]) ->
  poisson_pde W L Mx My (fun x y => - f [ox + x; oy + y]) (fun x y => g [ox + x; oy + y]) (fun x y => u [ox + x; oy + y]) ->
  forall sm s, hc_generate (N := NumR) e0 e1 [s0; s1] [ox; oy] = Ok sm -> m_prepare sm = Ok s ->
  returns (fem_system (N := NumR) drop 1 f g s) (fun r => let w := (e1 + 1)%nat in let n := ((e0 + 1) * w)%nat in
    exists a b, MatI.holds (fst (snd r)) n n a /\ reads (snd (snd r)) n b /\ symmetric2 n a /\ pos_def n a /\
    forall x, (forall i, (i < n)%nat -> @mulvec NumR n a x i = b i) ->
      forall i j, (i <= e0)%nat -> (j <= e1)%nat -> let X := INR j * h in
        Rabs (x (i * w + j)%nat - u [ox + h * INR j; oy + h * INR i]) <=
          ((Mx + My) * h ^ 2 / 12 + (Fx + Fy + Fd) * h ^ 2 / 24 + 7 * drop / h ^ 2) * (X * (W - X) / 2)).
Proof. intros e0 e1 s0 s1 ox oy h drop Mx My Fx Fy Fd f g u H0 H1 Hx Hy Ht Hd W L Hf Hu. exact (scheme e0 e1 s0 s1 ox oy h drop Mx My Fx Fy Fd f g u H0 H1 Hx Hy Ht Hd Hf Hu). Qed.

(** The lines of the vertex file, with CG (solver 1) or preconditioned CG (solver 2): whenever fewer than 1024 steps are reported -
    and for solver 2 always, if there are at most 1024 nodes and the right-hand side is not 0 - the tolerance 1e-4 adds
    1.1e-4 / h^2 inside and 2.1e-4 on the frame. *)
Theorem C79_program : forall e0 e1 (s0 s1 ox oy h drop Mx My Fx Fy Fd : R) (f g u : list R -> R), (1 <= e0)%nat -> (1 <= e1)%nat ->
  s0 / INR e0 = h -> s1 / INR e1 = h -> / 2 ^ 52 < h -> 0 <= drop <= 49 / 100 ->
  let W := INR e1 * h in let L := INR e0 * h in
  bent W L Fx Fy Fd (fun x y => f [ox + x; oy + y]) ->
  poisson_pde W L Mx My (fun x y => - f [ox + x; oy + y]) (fun x y => g [ox + x; oy + y]) (fun x y => u [ox + x; oy + y]) ->
  forall sm s solver sol, (solver = 1 \/ solver = 2)%nat -> hc_generate (N := NumR) e0 e1 [s0; s1] [ox; oy] = Ok sm -> m_prepare sm = Ok s ->
  returns (fem_handle (N := NumR) drop 1 solver f g sol s) (fun r => let w := (e1 + 1)%nat in let n := ((e0 + 1) * w)%nat in
    (fo_it r < 1024)%nat \/ (solver = 2%nat /\ (n <= 1024)%nat /\ exists k, (k < n)%nat /\ nth k (fo_B r) 0 <> 0) ->
    length (fo_data r) = n /\
    forall i j, (i <= e0)%nat -> (j <= e1)%nat -> exists v, nth_error (fo_data r) (i * w + j) = Some (ox + h * INR j, oy + h * INR i, v) /\
      let X := INR j * h in Rabs (v - u [ox + h * INR j; oy + h * INR i]) <=
        if on_frame e0 e1 i j then 21 / 100000
        else ((Mx + My) * h ^ 2 / 12 + (Fx + Fy + Fd) * h ^ 2 / 24 + (7 * drop + 11 / 100000) / h ^ 2) * (X * (W - X) / 2)).
Proof. intros e0 e1 s0 s1 ox oy h drop Mx My Fx Fy Fd f g u H0 H1 Hx Hy Ht Hd W L Hf Hu. exact (program e0 e1 s0 s1 ox oy h drop Mx My Fx Fy Fd f g u H0 H1 Hx Hy Ht Hd Hf Hu). Qed.

(** The program's own problem, f = sin(p x) sin(p y) on the unit square, with 16 x 16 cells (p as in C76_example, u = f / (2 p^2)):
    the second derivatives of f are at most p^2, p^2 and 2 p^2. *)
Definition f79 (l : list R) : R := sin (p * nth 0 l 0) * sin (p * nth 1 l 0).
Definition u79 (l : list R) : R := u76 (nth 0 l 0) (nth 1 l 0).
Example C79_example : let h := 1 / 16 in let W := INR 16 * h in
  1 / INR 16 = h /\ / 2 ^ 52 < h /\ bent W W (p ^ 2) (p ^ 2) (2 * p ^ 2) (fun x y => f79 [0 + x; 0 + y]) /\
  poisson_pde W W (p ^ 2 / 2) (p ^ 2 / 2) (fun x y => - f79 [0 + x; 0 + y]) (fun x y => u79 [0 + x; 0 + y]) (fun x y => u79 [0 + x; 0 + y]) /\
  is_ok (let* sm := hc_generate (N := NumQc) 16 16 [n1; n1] [n0; n0] in m_prepare sm) = true.
Proof.
  assert (E16 : INR 16 = 16) by (rewrite INR_IZR_INZ; reflexivity). cbn zeta. split; [now rewrite E16|]. split; [lra|].
  assert (Np : p <> 0) by (pose proof p_pos; lra).
  assert (Ef : (fun x y => f79 [0 + x; 0 + y]) = (fun x y => sin (p * x) * sin (p * y))).
  { extensionality x. extensionality y. unfold f79. cbn [nth]. now rewrite !Rplus_0_l. }
  assert (Eg : (fun x y => - f79 [0 + x; 0 + y]) = (fun x y => - (sin (p * x) * sin (p * y)))).
  { extensionality x. extensionality y. unfold f79. cbn [nth]. now rewrite !Rplus_0_l. }
  assert (Eu : (fun x y => u79 [0 + x; 0 + y]) = u76).
  { extensionality x. extensionality y. unfold u79. cbn [nth]. now rewrite !Rplus_0_l. }
  rewrite Ef, Eg, Eu. assert (Pp : 0 <= p ^ 2) by apply pow2_ge_0.
  assert (B : forall c s, Rabs c <= 1 -> Rabs (- c * p ^ 2 * sin (p * s)) <= p ^ 2).
  { intros c s Hc. pose proof (SIN_bound (p * s)) as Hs. assert (Hs' : Rabs (sin (p * s)) <= 1) by (apply Rabs_le; lra).
    replace (- c * p ^ 2 * sin (p * s)) with (- (c * sin (p * s)) * p ^ 2) by ring. rewrite Rabs_mult, Rabs_Ropp, Rabs_mult, (Rabs_pos_eq (p ^ 2)) by auto.
    rewrite <- (Rmult_1_l (p ^ 2)) at 2. apply Rmult_le_compat_r; auto. rewrite <- (Rmult_1_l 1). apply Rmult_le_compat; auto using Rabs_pos. }
  assert (S : forall a c g, Rabs c <= 1 -> (forall s, c * sin (p * s) = g s) -> exists f1, smooth2 0 a (p ^ 2) g f1).
  { intros a c g Hc E. exists (fun s => c * p * cos (p * s)), (fun s => - c * p ^ 2 * sin (p * s)). intros s _. split; [|split; [|now apply B]].
    - apply (dl_ext _ _ _ _ _ E eq_refl). refine (dl_ext _ _ _ _ _ (fun _ => eq_refl) _ (dl_sin c p s)). ring.
    - refine (dl_ext _ _ _ _ _ (fun _ => eq_refl) _ (dl_cos (c * p) p s)). ring. }
  assert (Sb : forall s, Rabs (sin s) <= 1) by (intros s; pose proof (SIN_bound s); apply Rabs_le; lra).
  split; [split; [|split]|split].
  - intros y _. apply (S _ (sin (p * y))); auto. intros; ring.
  - intros x _. apply (S _ (sin (p * x))); auto.
  - intros x y r _ _ _. exists (fun s => p * sin (p * (x + y) + 2 * p * s)), (fun s => 2 * p ^ 2 * cos (p * (x + y) + 2 * p * s)). intros s _. split; [|split].
    + pose proof (dl_shift cos (fun t => - sin t) (p * (x + y)) (2 * p) s (derivable_pt_lim_cos _)) as D.
      pose proof (derivable_pt_lim_plus _ _ _ _ _ (derivable_pt_lim_const (cos (p * (x - y)) / 2) s) (derivable_pt_lim_scal _ (- / 2) _ _ D)) as D2.
      refine (dl_ext _ _ _ _ _ _ _ D2); [|field]. intros t. unfold plus_fct, mult_real_fct, fct_cte.
      replace (p * (x - y)) with (p * (x + t) - p * (y + t)) by ring. replace (p * (x + y) + 2 * p * t) with (p * (x + t) + p * (y + t)) by ring.
      rewrite cos_minus, cos_plus. field.
    + pose proof (dl_shift sin cos (p * (x + y)) (2 * p) s (derivable_pt_lim_sin _)) as D.
      refine (dl_ext _ _ _ _ _ (fun _ => eq_refl) _ (derivable_pt_lim_scal _ p _ _ D)). ring.
    + rewrite Rabs_mult, (Rabs_pos_eq (2 * p ^ 2)) by lra. rewrite <- (Rmult_1_r (2 * p ^ 2)) at 2. apply Rmult_le_compat_l; [lra|].
      pose proof (COS_bound (p * (x + y) + 2 * p * s)). apply Rabs_le. lra.
  - assert (E1 : INR 16 * (1 / 16) = INR (201 - 1) * (5 / 1000)) by (rewrite E16; change (201 - 1)%nat with 200%nat; rewrite INR_IZR_INZ; cbn [Z.of_nat Pos.of_succ_nat Pos.succ]; lra).
    rewrite E1. exact C76_example.
  - vm_compute. reflexivity.
Qed.
