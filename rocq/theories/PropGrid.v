(** Properties C67 (examples/poisson/fdm.cpp) and C68 (examples/heat/main.cpp): the assembled systems are the textbook
    finite difference schemes, these are uniquely solvable, the programs never fail, and what they write is an
    approximation with an explicit error bound when they report fewer iterations than the limit.  Exact arithmetic. *)
From Coq Require Import List Arith Bool ZArith QArith Lia Ring Field.
From Verif Require Import Base BaseProofs Num NumInst NumEps OrdField Spec SpecProofs VectorModel MatI MatOps SparseModel LUModel IterModel IterProofs UtilsSpec UtilsInst
  ExampleBase PropLU GridModel GridSpec GridProofs GridPoisson GridMax GridSor GridHeat GridHeatRun IterResult SorConv GridConv.
Import ListNotations.
Local Open Scope nat_scope.
Open Scope res_scope.

(** ** C67.  fdm.cpp *)
(** [poisson XC YC H K f b u]: u is b on the rim of the grid and its five-point Laplacian is f inside.
    A X = B says exactly that X, read row by row, is such a grid function. *)
Theorem C67_assembly (N : Num) (HO : OrdFieldLaws N) (HN : NatLaws N) : forall XC YC (H K : N) f b,
  0 < XC -> 0 < YC -> H <> n0 -> K <> n0 ->
  returns (fdm_assemble XC YC H K f b) (fun AB => s_rows (fst AB) = XC * YC /\ s_cols (fst AB) = XC * YC /\ length (snd AB) = XC * YC /\
    forall X, length X = XC * YC ->
      (s_mulv (fst AB) X = Ok (snd AB) <-> poisson XC YC H K f b (fun x y => nth (y * XC + x) X n0))).
Proof. intros XC YC H K f b HX HY HH HK. exact (poisson_assembly HO HN XC YC H K f b HX HY HH HK). Qed.

(** Exactly one grid function solves the discrete problem. *)
Theorem C67_solvable (N : Num) (HO : OrdFieldLaws N) (HN : NatLaws N) : forall XC YC (H K : N) f b,
  0 < XC -> 0 < YC -> H <> n0 -> K <> n0 ->
  exists u, poisson XC YC H K f b u /\ forall v, poisson XC YC H K f b v -> forall x y, x < XC -> y < YC -> v x y = u x y.
Proof.
  intros XC YC H K f b HX HY HH HK. destruct (poisson_exists HO HN XC YC H K HX HY HH HK f b) as (u & Hu). exists u. split; auto.
  intros v Hv. exact (poisson_unique HO HN XC YC H K f b HH HK v u Hv Hu).
Qed.

(** The program always ends with YC lines of XC numbers; on the rim they are (1 - (1-w)^iterations) b. *)
Theorem C67_run (N : Num) (HO : OrdFieldLaws N) (HN : NatLaws N) : forall XC YC (H K : N) f b w maxIter eps,
  0 < XC -> 0 < YC -> H <> n0 -> K <> n0 ->
  returns (fdm_main XC YC H K f b w maxIter eps) (fun r => has_size2 XC YC (fst r) /\ snd r <= maxIter /\
    forall x y, x < XC -> y < YC -> on_rim XC YC x y ->
      table2 (fst r) x y = ((n1 - npow (n1 - w) (snd r)) * b (nofnat x * H) (nofnat y * K))%num).
Proof.
  intros XC YC H K f b w maxIter eps HX HY HH HK. destruct (poisson_run HO HN XC YC H K HX HY f b w eps maxIter) as (X & it & E & H0 & H1 & He).
  eexists. split; [exact E|]. cbn [fst snd]. split; [apply size2_grid|]. split; [apply He|]. intros x y Hx Hy Hr.
  rewrite (table2_grid XC YC (fun x y => X it (lin2 XC x y))) by auto.
  apply (rim_values HO XC YC H K HX HY f b w X H0 H1); auto.
Qed.

(** For 0 < w < 2 the numbers in the file approach the solution u of the scheme at a rate q < 1 that depends on the grid and w only. *)
Theorem C67_convergence (N : Num) (HO : OrdFieldLaws N) (HN : NatLaws N) : forall XC YC (H K w : N),
  0 < XC -> 0 < YC -> H <> n0 -> K <> n0 -> nltb n0 w = true -> nltb w (n1 + n1)%num = true ->
  exists q C : N, nleb n0 q = true /\ nltb q n1 = true /\ nleb n0 C = true /\
  forall f b u B maxIter eps, poisson XC YC H K f b u -> (forall x y, x < XC -> y < YC -> nleb (nabs (u x y)) B = true) ->
  returns (fdm_main XC YC H K f b w maxIter eps) (fun r => forall x y, x < XC -> y < YC ->
    nleb ((table2 (fst r) x y - u x y) * (table2 (fst r) x y - u x y))%num (C * qpow q (snd r) * (B * B))%num = true).
Proof. intros XC YC H K w HX HY HH HK H0 H2. exact (fdm_converges HO HN XC YC H K HX HY HH HK w H0 H2). Qed.
(** So with a tolerance that is not 0 it stops by itself, whatever the iteration limit. *)
Theorem C67_terminates (N : Num) (HO : OrdFieldLaws N) (HN : NatLaws N) : archimedean N -> forall XC YC (H K w : N) f b eps,
  0 < XC -> 0 < YC -> H <> n0 -> K <> n0 -> nltb n0 w = true -> nltb w (n1 + n1)%num = true -> eps <> n0 ->
  exists n, forall maxIter, returns (fdm_main XC YC H K f b w maxIter eps) (fun r => snd r <= n).
Proof. intros HA XC YC H K w f b eps HX HY HH HK H0 H2 He. exact (fdm_terminates HO HN XC YC H K HX HY HH HK HA w f b eps H0 H2 He). Qed.

(** Error certificate: if the printed count is below the limit, every number in the file is within
    theta eps + (2 theta + 1) (1/H^2 + 1/K^2) X (W-X)/2 eps of the solution of the scheme, theta = |1/w - 1|. *)
Theorem C67_certificate (N : Num) (HO : OrdFieldLaws N) (HN : NatLaws N) : forall XC YC (H K : N) f b w maxIter eps u,
  0 < XC -> 0 < YC -> H <> n0 -> K <> n0 -> w <> n0 -> nleb n0 eps = true -> poisson XC YC H K f b u ->
  returns (fdm_main XC YC H K f b w maxIter eps) (fun r => snd r < maxIter ->
    forall x y, x < XC -> y < YC ->
      let theta := nabs (n1 / w - n1)%num in
      nleb (nabs (table2 (fst r) x y - u x y)%num)
        (theta * eps + ((n1 + n1) * theta + n1) * (n1 / (H * H) + n1 / (K * K)) * eps * bubble XC H x)%num = true).
Proof.
  intros XC YC H K f b w maxIter eps u HX HY HH HK Hw Heps Hu.
  destruct (poisson_run HO HN XC YC H K HX HY f b w eps maxIter) as (X & it & E & H0 & H1 & He).
  eexists. split; [exact E|]. cbn [fst snd]. intros Hlt x y Hx Hy; cbn zeta. destruct He as (_ & _ & He & _). destruct (He Hlt) as (k & -> & Hd).
  rewrite (table2_grid XC YC (fun x y => X (S k) (lin2 XC x y))) by auto.
  assert (Hd' : forall i, i < XC * YC -> nleb (nabs (X (S k) i - X k i)%num) eps = true) by (intros i Hi; exact (dist2_small HO _ _ _ _ i Heps Hd Hi)).
  pose proof (run_defect HO XC YC H K HX HY HH HK f b w eps Hw (X k) (X (S k)) (H1 k) Hd') as Def.
  refine (poisson_stable HO HN XC YC H K HH HK (fun x y => X (S k) (lin2 XC x y)) u _ _ _ _ _ x y Hx Hy).
  - intros x' y' Hx' Hy' Hr. rewrite (proj1 (Hu x' y' Hx' Hy') Hr). now apply Def.
  - intros x' y' Hx' Hy' Hr. rewrite (proj2 (Hu x' y' Hx' Hy') Hr). now apply Def.
  - pose proof (oabs_nonneg HO (n1 / w - n1)%num). pose proof (olt_le HO _ _ (inv_sq_pos HO H HH)).
    pose proof (olt_le HO _ _ (inv_sq_pos HO K HK)). pose proof (olt_le HO _ _ (olt_0_1 HO)).
    repeat first [apply (ole_0_add HO)|apply (ole_0_mul HO)]; auto.
Qed.

Lemma Qe_nat : NatLaws Qe.
Proof. constructor; [exact (nl_0 NumQc NumQc_nat)|exact (nl_S NumQc NumQc_nat)]. Qed.
Definition q (n : Z) (d : positive) : Qe := Qcanon.Q2Qc (n # d).
(** 3 x 4 grid, H = K = 1/2, Laplace u = 4 inside, u = x on the rim, one sweep with weight 6/5. *)
Definition run67 maxIter eps := let* r := fdm_main 3 4 (q 1 2) (q 1 2) (fun _ _ => q 4 1) (fun x _ => x) (q 6 5) maxIter eps in
  Ok (map (fun l => map Qcanon.this l) (fst r), snd r).
Example C67_example : run67 1 (q 1 1000) = Ok ([[0 # 1; 3 # 5; 6 # 5]; [0 # 1; -3 # 25; 6 # 5]; [0 # 1; -42 # 125; 6 # 5]; [0 # 1; 3 # 5; 6 # 5]]%Q, 1).
Proof. vm_compute. reflexivity. Qed.

(** [FINDING] The tolerance is not an error bound: for Laplace u = 0, u = 1 on the rim (solution 1 everywhere) on a 3 x 3 grid with
    weight 1/8 and tolerance 1/10, 12 of at most 100 sweeps are reported and the corner value is about 0.8. *)
Theorem C67_tolerance_refuted : exists XC YC (H K : Qe) f b w maxIter eps u,
  0 < XC /\ 0 < YC /\ H <> n0 /\ K <> n0 /\ w <> n0 /\ nleb n0 eps = true /\ poisson XC YC H K f b u /\
  exists lines it x y, fdm_main XC YC H K f b w maxIter eps = Ok (lines, it) /\ it < maxIter /\ x < XC /\ y < YC /\
    nleb (nabs (table2 lines x y - u x y)%num) eps = false.
Proof.
  exists 3, 3, (q 1 1), (q 1 1), (fun _ _ => n0), (fun _ _ => n1), (q 1 8), 100, (q 1 10), (fun _ _ => n1).
  repeat (split; [first [lia|discriminate|reflexivity]|]). split.
  - intros x y _ _. split; [reflexivity|]. intros _. vm_compute. reflexivity.
  - set (r := fdm_main 3 3 (q 1 1) (q 1 1) (fun _ _ => n0) (fun _ _ => n1) (q 1 8) 100 (q 1 10)).
    exists (fst (get ([], 0) r)), (snd (get ([], 0) r)), 0, 0. split; [apply ok_get2; vm_compute; reflexivity|].
    split; [apply Nat.ltb_lt; vm_compute; reflexivity|]. split; [lia|]. split; [lia|]. vm_compute. reflexivity.
Qed.

(** ** C68.  heat/main.cpp *)
(** [heat ... u]: u is t0 at time 0, b on the rim afterwards, and (u_t - u_(t-1))/HT = k Laplace u_t + f inside. *)
Theorem C68_assembly (N : Num) (HO : OrdFieldLaws N) : forall TC XC YC (HT HX HY : N) k f b t0,
  0 < TC -> 0 < XC -> 0 < YC -> HT <> n0 -> HX <> n0 -> HY <> n0 ->
  returns (heat_assemble TC XC YC HT HX HY k f b t0) (fun AB =>
    s_rows (fst AB) = TC * XC * YC /\ s_cols (fst AB) = TC * XC * YC /\ length (snd AB) = TC * XC * YC /\
    forall X, length X = TC * XC * YC ->
      (s_mulv (fst AB) X = Ok (snd AB) <-> heat TC XC YC HT HX HY k f b t0 (fun t x y => nth (t * YC * XC + y * XC + x) X n0))).
Proof. intros TC XC YC HT HX HY k f b t0 PT PX PY NT NX NY. exact (heat_assembly (of_field N HO) TC XC YC HT HX HY k f b t0 PT PX PY NT NX NY). Qed.

(** For a conductivity k >= 0 on the grid the scheme has exactly one solution. *)
Theorem C68_solvable (N : Num) (HO : OrdFieldLaws N) (HN : NatLaws N) : forall TC XC YC (HT HX HY : N) k f b t0,
  0 < TC -> 0 < XC -> 0 < YC -> nltb n0 HT = true -> HX <> n0 -> HY <> n0 ->
  (forall t x y, t < TC -> x < XC -> y < YC -> nleb n0 (k (nofnat t * HT) (nofnat x * HX) (nofnat y * HY))%num = true) ->
  exists u, heat TC XC YC HT HX HY k f b t0 u /\
    forall v, heat TC XC YC HT HX HY k f b t0 v -> forall t x y, t < TC -> x < XC -> y < YC -> v t x y = u t x y.
Proof.
  intros TC XC YC HT HX HY k f b t0 PT PX PY NT NX NY Pk.
  destruct (heat_exists HO HN TC XC YC HT HX HY PT PX PY NT NX NY k Pk f b t0) as (u & Hu). exists u. split; auto.
  intros v Hv. exact (heat_unique HO HN TC XC YC HT HX HY PT PX PY NT NX NY k Pk f b t0 v u Hv Hu).
Qed.
(** Without sources it stays between the bounds of the initial and the boundary values, whatever the time step. *)
Theorem C68_bounds (N : Num) (HO : OrdFieldLaws N) (HN : NatLaws N) : forall TC XC YC (HT HX HY : N) k b t0 u lo hi,
  0 < TC -> 0 < XC -> 0 < YC -> nltb n0 HT = true -> HX <> n0 -> HY <> n0 ->
  (forall t x y, t < TC -> x < XC -> y < YC -> nleb n0 (k (nofnat t * HT) (nofnat x * HX) (nofnat y * HY))%num = true) ->
  (forall x y, nleb lo (t0 x y) = true /\ nleb (t0 x y) hi = true) -> (forall t x y, nleb lo (b t x y) = true /\ nleb (b t x y) hi = true) ->
  heat TC XC YC HT HX HY k (fun _ _ _ => n0) b t0 u ->
  forall t x y, t < TC -> x < XC -> y < YC -> nleb lo (u t x y) = true /\ nleb (u t x y) hi = true.
Proof.
  intros TC XC YC HT HX HY k b t0 u lo hi PT PX PY NT NX NY Pk Ht Hb Hu.
  exact (heat_bounds HO HN TC XC YC HT HX HY PT PX PY NT NX NY k Pk b t0 u lo hi Ht Hb Hu).
Qed.

(** The program always ends with TC blocks of YC lines of XC numbers; prescribed values come out times 1 - (1-w)^iterations. *)
Theorem C68_run (N : Num) (HO : OrdFieldLaws N) : forall TC XC YC (HT HX HY : N) k f b t0 w maxIter eps,
  0 < TC -> 0 < XC -> 0 < YC ->
  returns (heat_main TC XC YC HT HX HY k f b t0 w maxIter eps) (fun r => has_size3 TC XC YC (fst r) /\ snd r <= maxIter /\
    forall t x y, t < TC -> x < XC -> y < YC -> t = 0 \/ on_rim XC YC x y ->
      table3 (fst r) t x y = ((n1 - npow (n1 - w) (snd r)) *
        (if t =? 0 then t0 (nofnat x * HX) (nofnat y * HY) else b (nofnat t * HT) (nofnat x * HX) (nofnat y * HY)))%num).
Proof.
  intros TC XC YC HT HX HY k f b t0 w maxIter eps PT PX PY.
  destruct (heat_run HO TC XC YC HT HX HY PT PX PY k f b t0 w eps maxIter) as (X & it & E & H0 & H1 & He).
  eexists. split; [exact E|]. cbn [fst snd]. split; [apply (size3_grid TC XC YC (fun t x y => X it (lin3 XC YC t x y)))|].
  split; [apply He|]. intros t x y Ht Hx Hy Hr.
  rewrite (table3_grid TC XC YC (fun t x y => X it (lin3 XC YC t x y))) by auto.
  exact (heat_fixed_values HO TC XC YC HT HX HY k f b t0 w X H0 H1 it t x y Ht Hx Hy Hr).
Qed.

(** For 0 < w < 2 the numbers in the file approach the solution of the scheme at a rate below 1, *)
Theorem C68_convergence (N : Num) (HO : OrdFieldLaws N) : forall TC XC YC (HT HX HY : N) k w,
  0 < TC -> 0 < XC -> 0 < YC -> nltb n0 HT = true -> HX <> n0 -> HY <> n0 -> nltb n0 w = true -> nltb w (n1 + n1)%num = true ->
  (forall t x y, t < TC -> x < XC -> y < YC -> nleb n0 (k (nofnat t * HT) (nofnat x * HX) (nofnat y * HY))%num = true) ->
  exists q C : N, nleb n0 q = true /\ nltb q n1 = true /\ nleb n0 C = true /\
  forall f b t0 u B maxIter eps, heat TC XC YC HT HX HY k f b t0 u -> (forall t x y, t < TC -> x < XC -> y < YC -> nleb (nabs (u t x y)) B = true) ->
  returns (heat_main TC XC YC HT HX HY k f b t0 w maxIter eps) (fun r => forall t x y, t < TC -> x < XC -> y < YC ->
    nleb ((table3 (fst r) t x y - u t x y) * (table3 (fst r) t x y - u t x y))%num (C * qpow q (snd r) * (B * B))%num = true).
Proof. intros TC XC YC HT HX HY k w PT PX PY NT NX NY H0 H2 Pk. exact (heat_converges HO TC XC YC HT HX HY PT PX PY NT NX NY k Pk w H0 H2). Qed.
(** and with a tolerance that is not 0 it stops by itself. *)
Theorem C68_terminates (N : Num) (HO : OrdFieldLaws N) (HN : NatLaws N) : archimedean N -> forall TC XC YC (HT HX HY : N) k w f b t0 eps,
  0 < TC -> 0 < XC -> 0 < YC -> nltb n0 HT = true -> HX <> n0 -> HY <> n0 -> nltb n0 w = true -> nltb w (n1 + n1)%num = true ->
  (forall t x y, t < TC -> x < XC -> y < YC -> nleb n0 (k (nofnat t * HT) (nofnat x * HX) (nofnat y * HY))%num = true) -> eps <> n0 ->
  exists n, forall maxIter, returns (heat_main TC XC YC HT HX HY k f b t0 w maxIter eps) (fun r => snd r <= n).
Proof. intros HA TC XC YC HT HX HY k w f b t0 eps PT PX PY NT NX NY H0 H2 Pk He. exact (heat_terminates HO HN TC XC YC HT HX HY PT PX PY NT NX NY k Pk HA w f b t0 eps H0 H2 He). Qed.

(** Error certificate for 0 <= k <= kmax, theta = |1/w - 1|: theta eps at time 0, growing linearly with time. *)
Theorem C68_certificate (N : Num) (HO : OrdFieldLaws N) (HN : NatLaws N) : forall TC XC YC (HT HX HY : N) k f b t0 w maxIter eps kmax u,
  0 < TC -> 0 < XC -> 0 < YC -> nltb n0 HT = true -> HX <> n0 -> HY <> n0 -> w <> n0 -> nleb n0 eps = true ->
  (forall t x y, t < TC -> x < XC -> y < YC -> nleb n0 (k (nofnat t * HT) (nofnat x * HX) (nofnat y * HY))%num = true /\
     nleb (k (nofnat t * HT) (nofnat x * HX) (nofnat y * HY))%num kmax = true) ->
  heat TC XC YC HT HX HY k f b t0 u ->
  returns (heat_main TC XC YC HT HX HY k f b t0 w maxIter eps) (fun r => snd r < maxIter ->
    forall t x y, t < TC -> x < XC -> y < YC ->
      let theta := nabs (n1 / w - n1)%num in
      nleb (nabs (table3 (fst r) t x y - u t x y)%num)
        (theta * eps + (((n1 + n1) * theta + n1) * (n1 / (HX * HX) + n1 / (HY * HY)) * kmax + theta * (n1 / HT)) * eps * (nofnat t * HT))%num = true).
Proof.
  intros TC XC YC HT HX HY k f b t0 w maxIter eps kmax u PT PX PY NT NX NY Hw Heps Pk Hu.
  destruct (heat_run HO TC XC YC HT HX HY PT PX PY k f b t0 w eps maxIter) as (X & it & E & H0 & H1 & He).
  eexists. split; [exact E|]. cbn [fst snd]. intros Hlt t x y Ht Hx Hy; cbn zeta. destruct He as (_ & _ & He & _). destruct (He Hlt) as (j & -> & Hd).
  rewrite (table3_grid TC XC YC (fun t x y => X (S j) (lin3 XC YC t x y))) by auto.
  assert (Hd' : forall i, i < TC * XC * YC -> nleb (nabs (X (S j) i - X j i)%num) eps = true) by (intros i Hi; exact (dist2_small HO _ _ _ _ i Heps Hd Hi)).
  assert (Pk1 : forall t x y, t < TC -> x < XC -> y < YC -> nleb n0 (k (ft HT t) (fx HX x) (fy HY y)) = true) by (intros; now apply Pk).
  assert (Pk2 : forall t x y, t < TC -> x < XC -> y < YC -> nleb (k (ft HT t) (fx HX x) (fy HY y)) kmax = true) by (intros; now apply Pk).
  pose proof (heat_defect HO TC XC YC HT HX HY PT PX PY NT NX NY k Pk1 f b t0 w eps Hw Heps kmax Pk2 (X j) (X (S j)) (H1 j) Hd') as Def.
  assert (Kn : nleb n0 kmax = true) by (apply (of_le_trans N HO) with (k (ft HT 0) (fx HX 0) (fy HY 0)); auto).
  refine (heat_stable HO HN TC XC YC HT HX HY PT PX PY NT NX NY k Pk1 (fun t x y => X (S j) (lin3 XC YC t x y)) u _ _ _ _ _ t x y Ht Hx Hy).
  - intros t' x' y' Ht' Hx' Hy' Hr. pose proof (proj1 (Def t' x' y' Ht' Hx' Hy') Hr) as B.
    destruct (Hu t' x' y' Ht' Hx' Hy') as (U1 & U2 & _). destruct (Nat.eqb_spec t' 0) as [E0|E0].
    + rewrite (U1 E0). exact B.
    + destruct Hr as [Hr|Hr]; [contradiction|]. rewrite (U2 E0 Hr). exact B.
  - intros t' x' y' Ht' Hx' Hy' Hn Hr. rewrite (heat_op HO TC XC YC HT HX HY k f b t0 u Hu t' x' y' Ht' Hx' Hy' Hn Hr). now apply Def.
  - apply (heat_defect_bound_nonneg HO HT HX HY NT NX NY w eps Heps kmax Kn).
Qed.

(** 2 times on a 3 x 3 grid, HT = HX = HY = 1, k = 1/2, no source, 1 at time 0 and 0 on the rim afterwards: the inner value at
    time 1 solves 3 u = 1; four sweeps with weight 1. *)
Definition run68 (eps : Qe) := let* r := heat_main 2 3 3 (q 1 1) (q 1 1) (q 1 1) (fun _ _ _ => q 1 2) (fun _ _ _ => n0) (fun _ _ _ => n0) (fun _ _ => n1) n1 10 eps in
  Ok (map (map (fun l => map Qcanon.this l)) (fst r), snd r).
Example C68_example : run68 (q 1 1000) = Ok ([[[1#1;1#1;1#1]; [1#1;1#1;1#1]; [1#1;1#1;1#1]]; [[0#1;0#1;0#1]; [0#1;1#3;0#1]; [0#1;0#1;0#1]]]%Q, 2).
Proof. vm_compute. reflexivity. Qed.
