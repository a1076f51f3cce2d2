(** Properties C81 and C82: the numbers written by examples/poisson/fdm.cpp and examples/heat/main.cpp in the arithmetic they are compiled with (IEEE doubles, round to
    nearest), against the solution of the differential equation.  C76 is the same in exact arithmetic. *)
From Coq Require Import ZArith Reals Lra Lia Arith List SpecFloat.
From Verif Require Import Base Num NumInst ExampleBase GridModel GridSpec AccuracySpec FloatSpec FloatIterSpec F64Flocq GridFloatSpec GridTaylor GridFloat HeatFloat PropFloat.
Import ListNotations.
Local Open Scope R_scope.
Open Scope res_scope.

(** [evaluates v F phi Fm]: the double v is within phi of the number F, which is at most Fm.  A run of the program that reports
    fewer than the allowed sweeps writes a table which is within the rim defect, plus (the defect of the equations / k^2 plus the
    discretisation error) times X (W - X) / 2, of the solution u - provided the last two sweeps produced finite numbers.
    [fdm_rim] and [fdm_inner] (GridFloatSpec) bound the two defects by the tolerance, the rounding errors of the sweep, of the
    right-hand side, and of the two coefficients k^2/h^2 and -2 (1 + k^2/h^2). *)
Theorem C81_poisson : forall XC YC (H K w eps : NumF64) (f b : NumF64 -> NumF64 -> NumF64) (F G u : R -> R -> R) (Mx My phi psi Fm Gm : R),
  (2 < XC)%nat -> (2 < YC)%nat -> (Z.of_nat (XC * YC) < 2 ^ 53)%Z ->
  double H -> finite H -> 0 < real H -> double K -> finite K -> 0 < real K ->
  finite (fdm_R2 H K) -> finite (fdm_C H K) ->
  double w -> real w <> 0 -> double eps -> finite eps -> Rabs (real eps) <= powerRZ 2 500 ->
  let h := real H in let k := real K in let W := INR (XC - 1) * h in
  poisson_pde W (INR (YC - 1) * k) Mx My F G u ->
  (forall x y, (x < XC)%nat -> (y < YC)%nat -> on_rim XC YC x y ->
     evaluates (b (nofnat x * H)%num (nofnat y * K)%num) (G (INR x * h) (INR y * k)) psi Gm) ->
  (forall x y, (x < XC)%nat -> (y < YC)%nat -> ~ on_rim XC YC x y ->
     evaluates (f (nofnat x * H)%num (nofnat y * K)%num) (F (INR x * h) (INR y * k)) phi Fm) ->
  forall maxIter lines it, fdm_main XC YC H K f b w maxIter eps = Ok (lines, it) -> (it < maxIter)%nat -> (1 < it)%nat \/ real w = 1 ->
  exists lines', fdm_main XC YC H K f b w (it - 1) eps = Ok (lines', (it - 1)%nat) /\
  forall Y, grid_tame XC YC (table2 lines') (table2 lines) Y -> forall x y, (x < XC)%nat -> (y < YC)%nat ->
    let d := step_bound (real eps) in let X := INR x * h in
    Rabs (real (table2 lines x y) - u X (INR y * k)) <=
      fdm_rim d (real w) Y Gm psi
      + (fdm_inner d (real w) Y h k (real (fdm_R2 H K)) (real (fdm_C H K)) Fm phi / k ^ 2 + (Mx * h ^ 2 + My * k ^ 2) / 12) * (X * (W - X) / 2).
Proof.
  intros XC YC H K w eps f b F G u Mx My phi psi Fm Gm PX PY HD DH FH Ph DK FK Pk F2 FC Dw W0 De Fe He h k W Hp Hb Hf maxIter lines it E Hit Hw.
  exact (poisson_float XC YC H K w eps f b F G u Mx My phi psi Fm Gm PX PY HD DH FH Ph DK FK Pk F2 FC Dw W0 De Fe He Hp Hb Hf maxIter lines it E Hit Hw).
Qed.

(** Equal steps, as in the shipped program: the coefficients are exactly 1 and -4. *)
Theorem C81_coefficients : forall K : NumF64, double K -> finite (fdm_R2 K K) -> real (fdm_R2 K K) = 1 /\ finite (fdm_C K K) /\ real (fdm_C K K) = - 4.
Proof. exact square_coefficients. Qed.

Theorem C81_square : forall XC YC (K w eps : NumF64) (f b : NumF64 -> NumF64 -> NumF64) (F G u : R -> R -> R) (Mx My phi psi Fm Gm : R),
  (2 < XC)%nat -> (2 < YC)%nat -> (Z.of_nat (XC * YC) < 2 ^ 53)%Z ->
  double K -> finite K -> 0 < real K -> finite (fdm_R2 K K) ->
  double w -> real w <> 0 -> double eps -> finite eps -> Rabs (real eps) <= powerRZ 2 500 ->
  let k := real K in let W := INR (XC - 1) * k in
  poisson_pde W (INR (YC - 1) * k) Mx My F G u ->
  (forall x y, (x < XC)%nat -> (y < YC)%nat -> on_rim XC YC x y ->
     evaluates (b (nofnat x * K)%num (nofnat y * K)%num) (G (INR x * k) (INR y * k)) psi Gm) ->
  (forall x y, (x < XC)%nat -> (y < YC)%nat -> ~ on_rim XC YC x y ->
     evaluates (f (nofnat x * K)%num (nofnat y * K)%num) (F (INR x * k) (INR y * k)) phi Fm) ->
  forall maxIter lines it, fdm_main XC YC K K f b w maxIter eps = Ok (lines, it) -> (it < maxIter)%nat -> (1 < it)%nat \/ real w = 1 ->
  exists lines', fdm_main XC YC K K f b w (it - 1) eps = Ok (lines', (it - 1)%nat) /\
  forall Y, grid_tame XC YC (table2 lines') (table2 lines) Y -> forall x y, (x < XC)%nat -> (y < YC)%nat ->
    let d := step_bound (real eps) in let rho := rhs_bound k Fm phi in
    Rabs (real (table2 lines x y) - u (INR x * k) (INR y * k)) <=
      fdm_rim d (real w) Y Gm psi
      + (((d * (4 * Rabs (1 - real w) + 2 * Rabs (real w)) + relax_bound 9 (real w) 4 (Y + d) (k ^ 2 * Fm + rho + 4 * (Y + d))) / Rabs (real w) + rho) / k ^ 2
         + (Mx + My) * k ^ 2 / 12) * (W ^ 2 / 8).
Proof. exact poisson_float_square. Qed.

(** ** Example: u = x^2 + y^2 on [0,6] x [0,4], H = 2, K = 1, weight 9/8, tolerance 2^-10.  The data are integers, so they are
    evaluated without error; the program stops after 11 of 100 sweeps and all its numbers are at most 60. *)
Definition f81 (x y : NumF64) : NumF64 := fz 4.
Definition b81 (x y : NumF64) : NumF64 := (x * x + y * y)%num.
Definition run81 (maxIter : nat) := fdm_main 4 5 (fz 2) (fz 1) f81 b81 (fz 9 / fz 8)%num maxIter (two_to (-10)).
Lemma sq_smooth a c : smooth4 0 a 0 (fun s => s ^ 2 + c) (fun _ => 2).
Proof.
  exists (fun s => 2 * s), (fun _ => 0), (fun _ => 0). intros s _. split; [|split; [|split; [|split]]].
  - apply (dl_ext (fun s => s * s + c) _ _ (1 * s + s * 1 + 0)); [intros; ring|ring|]. apply derivable_pt_lim_plus; [|apply derivable_pt_lim_const].
    apply (derivable_pt_lim_mult id id); apply derivable_pt_lim_id.
  - apply (dl_ext (fun s => 2 * s) _ _ (0 * s + 2 * 1)); [reflexivity|ring|].
    apply (derivable_pt_lim_mult (fct_cte 2) id); [apply derivable_pt_lim_const|apply derivable_pt_lim_id].
  - apply derivable_pt_lim_const.
  - apply derivable_pt_lim_const.
  - rewrite Rabs_R0. lra.
Qed.
Example C81_example :
  poisson_pde (INR (4 - 1) * real (fz 2)) (INR (5 - 1) * real (fz 1)) 0 0 (fun _ _ => 4) (fun x y => x ^ 2 + y ^ 2) (fun x y => x ^ 2 + y ^ 2) /\
  (forall x y, (x < 4)%nat -> (y < 5)%nat ->
     evaluates (b81 (nofnat x * fz 2)%num (nofnat y * fz 1)%num) ((INR x * real (fz 2)) ^ 2 + (INR y * real (fz 1)) ^ 2) 0 52 /\
     evaluates (f81 (nofnat x * fz 2)%num (nofnat y * fz 1)%num) 4 0 4) /\
  (finite (fdm_R2 (fz 2) (fz 1)) /\ finite (fdm_C (fz 2) (fz 1))) /\
  (let* r := run81 100 in let* r' := run81 (snd r - 1) in
   Ok (snd r, snd r', forallb (fun l => forallb (fun v : NumF64 => nleb (nabs v) (fz 60)) l) (fst r ++ fst r'))) = Ok (11%nat, 10%nat, true).
Proof.
  assert (R2 : real (fz 2) = 2) by apply (int_checked (fz 2) 2 eq_refl). assert (R1 : real (fz 1) = 1) by apply (int_checked (fz 1) 1 eq_refl).
  assert (R4 : real (fz 4) = 4) by apply (int_checked (fz 4) 4 eq_refl).
  rewrite R1, R2. split; [|split; [|split]].
  - exists (fun _ _ => 2), (fun _ _ => 2). split; [|split; [|split]].
    + intros y _. apply (sq_smooth _ (y ^ 2)).
    + intros x _. destruct (sq_smooth (INR (5 - 1) * 1) (x ^ 2)) as (g1 & g3 & g4 & S). exists g1, g3, g4. intros s Hs. destruct (S s Hs) as (S1 & S2). split; [|exact S2].
      apply (dl_ext _ _ _ _ _ (fun t => Rplus_comm (t ^ 2) (x ^ 2)) eq_refl S1).
    + intros; lra.
    + reflexivity.
  - assert (Go : forall (v : NumF64) F (m : R) z, is_int v z -> F = IZR z -> Rabs F <= m -> evaluates v F 0 m).
    { intros v F m z (D1 & D2 & D3) -> Hm. split; [exact D1|]. split; [exact D2|]. split; [|exact Hm]. rewrite D3. replace (IZR z - IZR z) with 0 by ring. rewrite Rabs_R0. lra. }
    intros x y Hx Hy. split; [|apply (Go _ _ _ 4%Z (int_checked (fz 4) 4 eq_refl) eq_refl); rewrite Rabs_pos_eq; lra].
    apply (Go _ _ _ (Z.of_nat x * 2 * (Z.of_nat x * 2) + Z.of_nat y * 1 * (Z.of_nat y * 1))%Z).
    + apply int_checked. repeat (destruct x as [|x]; [repeat (destruct y as [|y]; [reflexivity|try lia])|try lia]).
    + rewrite plus_IZR, !mult_IZR, <- !INR_IZR_INZ. ring.
    + assert (Bx : 0 <= INR x <= 3) by (split; [apply pos_INR|]; replace 3 with (INR 3) by (cbn; ring); apply le_INR; lia).
      assert (By : 0 <= INR y <= 4) by (split; [apply pos_INR|]; replace 4 with (INR 4) by (cbn; ring); apply le_INR; lia).
      assert (P1 : 0 <= (INR x * 2) ^ 2 <= 36) by nra. assert (P2 : 0 <= (INR y * 1) ^ 2 <= 16) by nra. rewrite Rabs_pos_eq by lra. lra.
  - split; exact Logic.I.
  - vm_compute. reflexivity.
Qed.

(** ** C82.  examples/heat/main.cpp in double arithmetic; C77 is the same in exact arithmetic. *)
(** A run that reports fewer than the allowed sweeps, with finite numbers in its last two sweeps, writes tables within the defect
    of the fixed values, plus (the defect of the equations plus the discretisation error) times the time, of the solution.
    The coefficients of the equations are those the program computes; rt, rx, ry, rc are the parts that do not depend on the point. *)
Theorem C82_heat : forall TC XC YC (HT HX HY w eps : NumF64) (k f b : NumF64 -> NumF64 -> NumF64 -> NumF64) (t0 : NumF64 -> NumF64 -> NumF64)
  (kk F G : R -> R -> R -> R) (G0 : R -> R -> R) (u : R -> R -> R -> R) (Mt Mx My km kap phi psi Fm Gm : R),
  (1 < TC)%nat -> (2 < XC)%nat -> (2 < YC)%nat -> (Z.of_nat (TC * XC * YC) < 2 ^ 53)%Z ->
  double HT -> 0 < real HT -> double HX -> 0 < real HX -> double HY -> 0 < real HY ->
  double w -> real w <> 0 -> double eps -> finite eps -> Rabs (real eps) <= powerRZ 2 500 ->
  let ht := real HT in let hx := real HX in let hy := real HY in
  heat_pde (INR (TC - 1) * ht) (INR (XC - 1) * hx) (INR (YC - 1) * hy) Mt Mx My kk F G G0 u ->
  (forall t x y, (t < TC)%nat -> (x < XC)%nat -> (y < YC)%nat -> 0 <= kk (INR t * ht) (INR x * hx) (INR y * hy) <= km) ->
  (forall t x y, (t < TC)%nat -> (x < XC)%nat -> (y < YC)%nat -> t <> 0%nat -> ~ on_rim XC YC x y ->
     let kv := k (nofnat t * HT)%num (nofnat x * HX)%num (nofnat y * HY)%num in
     evaluates kv (kk (INR t * ht) (INR x * hx) (INR y * hy)) kap km /\
     evaluates (f (nofnat t * HT)%num (nofnat x * HX)%num (nofnat y * HY)%num) (F (INR t * ht) (INR x * hx) (INR y * hy)) phi Fm /\
     finite (- heat_ih2 HX * kv)%num /\ finite (- heat_ih2 HY * kv)%num /\ finite (heat_C HX HY * kv + n1 / HT)%num) ->
  (forall t x y, (t < TC)%nat -> (x < XC)%nat -> (y < YC)%nat -> t <> 0%nat -> on_rim XC YC x y ->
     evaluates (b (nofnat t * HT)%num (nofnat x * HX)%num (nofnat y * HY)%num) (G (INR t * ht) (INR x * hx) (INR y * hy)) psi Gm) ->
  (forall x y, (x < XC)%nat -> (y < YC)%nat -> evaluates (t0 (nofnat x * HX)%num (nofnat y * HY)%num) (G0 (INR x * hx) (INR y * hy)) psi Gm) ->
  forall maxIter blocks it, heat_main TC XC YC HT HX HY k f b t0 w maxIter eps = Ok (blocks, it) -> (it < maxIter)%nat -> (1 < it)%nat \/ real w = 1 ->
  exists blocks', heat_main TC XC YC HT HX HY k f b t0 w (it - 1) eps = Ok (blocks', (it - 1)%nat) /\
  forall Y, grid_tame3 TC XC YC (table3 blocks') (table3 blocks) Y -> forall t x y, (t < TC)%nat -> (x < XC)%nat -> (y < YC)%nat ->
    let d := step_bound (real eps) in
    let rt := real (n1 / HT : NumF64)%num in let rx := real (heat_ih2 HX) in let ry := real (heat_ih2 HY) in let rc := real (heat_C HX HY) in
    Rabs (real (table3 blocks t x y) - u (INR t * ht) (INR x * hx) (INR y * hy)) <=
      fdm_rim d (real w) Y Gm psi
      + (heat_inner d (real w) Y ht hx hy rt rx ry rc km kap Fm phi + Mt * ht / 2 + km * ((Mx * hx ^ 2 + My * hy ^ 2) / 12)) * (INR t * ht).
Proof.
  intros TC XC YC HT HX HY w eps k f b t0 kk F G G0 u Mt Mx My km kap phi psi Fm Gm PT PX PY HD DT Pt DX Px DY Py Dw W0 De Fe He ht hx hy Hp Hk Hkv Hb H0 maxIter blocks it E Hit Hw.
  exact (heat_float TC XC YC HT HX HY w eps k f b t0 kk F G G0 u Mt Mx My km kap phi psi Fm Gm PT PX PY HD DT Pt DX Px DY Py Dw W0 De Fe He Hp Hk Hkv Hb H0 maxIter blocks it E Hit Hw).
Qed.

(** ** Example: u = x^2 + y^2 + 6 t with k = 1 and f = 2; HT = HX = 1, HY = 2; 3 times, 4 x 3 points. *)
Definition k82 (t x y : NumF64) : NumF64 := fz 1.
Definition f82 (t x y : NumF64) : NumF64 := fz 2.
Definition b82 (t x y : NumF64) : NumF64 := (x * x + y * y + fz 6 * t)%num.
Definition i82 (x y : NumF64) : NumF64 := (x * x + y * y)%num.
Definition run82 (maxIter : nat) := heat_main 3 4 3 (fz 1) (fz 1) (fz 2) k82 f82 b82 i82 (fz 9 / fz 8)%num maxIter (two_to (-10)).
Lemma exact_value (v : NumF64) F (m : R) z : is_int v z -> F = IZR z -> Rabs F <= m -> evaluates v F 0 m.
Proof.
  intros (D1 & D2 & D3) -> Hm. split; [exact D1|]. split; [exact D2|]. split; [|exact Hm]. rewrite D3. replace (IZR z - IZR z) with 0 by ring. rewrite Rabs_R0. lra.
Qed.
Example C82_example :
  heat_pde (INR (3 - 1) * real (fz 1)) (INR (4 - 1) * real (fz 1)) (INR (3 - 1) * real (fz 2)) 0 0 0 (fun _ _ _ => 1) (fun _ _ _ => 2)
    (fun t x y => x ^ 2 + y ^ 2 + 6 * t) (fun x y => x ^ 2 + y ^ 2) (fun t x y => x ^ 2 + y ^ 2 + 6 * t) /\
  (forall t x y, (t < 3)%nat -> (x < 4)%nat -> (y < 3)%nat ->
     let kv := k82 (nofnat t * fz 1)%num (nofnat x * fz 1)%num (nofnat y * fz 2)%num in
     evaluates kv 1 0 1 /\ evaluates (f82 (nofnat t * fz 1)%num (nofnat x * fz 1)%num (nofnat y * fz 2)%num) 2 0 2 /\
     finite (- heat_ih2 (fz 1) * kv)%num /\ finite (- heat_ih2 (fz 2) * kv)%num /\ finite (heat_C (fz 1) (fz 2) * kv + n1 / fz 1)%num /\
     evaluates (b82 (nofnat t * fz 1)%num (nofnat x * fz 1)%num (nofnat y * fz 2)%num)
       ((INR x * real (fz 1)) ^ 2 + (INR y * real (fz 2)) ^ 2 + 6 * (INR t * real (fz 1))) 0 37 /\
     evaluates (i82 (nofnat x * fz 1)%num (nofnat y * fz 2)%num) ((INR x * real (fz 1)) ^ 2 + (INR y * real (fz 2)) ^ 2) 0 37) /\
  (let* r := run82 100 in let* r' := run82 (snd r - 1) in
   Ok (snd r, snd r', forallb (fun v : NumF64 => nleb (nabs v) (fz 50)) (concat (concat (fst r ++ fst r'))))) = Ok (8%nat, 7%nat, true).
Proof.
  assert (R2 : real (fz 2) = 2) by apply (int_checked (fz 2) 2 eq_refl). assert (R1 : real (fz 1) = 1) by apply (int_checked (fz 1) 1 eq_refl).
  rewrite R1, R2. split; [|split].
  - exists (fun _ _ _ => 6), (fun _ _ _ => 2), (fun _ _ _ => 2). split; [|split; [|split; [|split; [|split]]]].
    + intros x y _ _. exists (fun _ => 0). intros t _. split; [|split].
      * apply (dl_ext (fun s => (x ^ 2 + y ^ 2) + 6 * s) _ _ (0 + (0 * t + 6 * 1))); [intros; ring|ring|]. apply derivable_pt_lim_plus; [apply derivable_pt_lim_const|].
        apply (derivable_pt_lim_mult (fct_cte 6) id); [apply derivable_pt_lim_const|apply derivable_pt_lim_id].
      * apply derivable_pt_lim_const.
      * rewrite Rabs_R0. lra.
    + intros t y _ _. destruct (sq_smooth (INR (4 - 1) * 1) (y ^ 2 + 6 * t)) as (g1 & g3 & g4 & S). exists g1, g3, g4. intros s Hs. destruct (S s Hs) as (S1 & S2). split; [|exact S2].
      apply (dl_ext (fun s => s ^ 2 + (y ^ 2 + 6 * t)) _ _ (g1 s)); [intros; ring|reflexivity|exact S1].
    + intros t x _ _. destruct (sq_smooth (INR (3 - 1) * 2) (x ^ 2 + 6 * t)) as (g1 & g3 & g4 & S). exists g1, g3, g4. intros s Hs. destruct (S s Hs) as (S1 & S2). split; [|exact S2].
      apply (dl_ext (fun s => s ^ 2 + (x ^ 2 + 6 * t)) _ _ (g1 s)); [intros; ring|reflexivity|exact S1].
    + intros; lra.
    + intros; ring.
    + reflexivity.
  - intros t x y Ht Hx Hy kv. split; [apply (exact_value _ _ _ 1%Z (int_checked (fz 1) 1 eq_refl) eq_refl); rewrite Rabs_pos_eq; lra|].
    split; [apply (exact_value _ _ _ 2%Z (int_checked (fz 2) 2 eq_refl) eq_refl); rewrite Rabs_pos_eq; lra|].
    split; [exact Logic.I|]. split; [exact Logic.I|]. split; [exact Logic.I|].
    assert (Bt : 0 <= INR t <= 2) by (split; [apply pos_INR|]; replace 2 with (INR 2) by (cbn; ring); apply le_INR; lia).
    assert (Bx : 0 <= INR x <= 3) by (split; [apply pos_INR|]; replace 3 with (INR 3) by (cbn; ring); apply le_INR; lia).
    assert (By : 0 <= INR y <= 2) by (split; [apply pos_INR|]; replace 2 with (INR 2) by (cbn; ring); apply le_INR; lia).
    assert (P1 : 0 <= (INR x * 1) ^ 2 <= 9) by nra. assert (P2 : 0 <= (INR y * 2) ^ 2 <= 16) by nra. split.
    + apply (exact_value _ _ _ (Z.of_nat x * 1 * (Z.of_nat x * 1) + Z.of_nat y * 2 * (Z.of_nat y * 2) + 6 * (Z.of_nat t * 1))%Z).
      * apply int_checked. clear - Ht Hx Hy. repeat (destruct t as [|t]; [repeat (destruct x as [|x]; [repeat (destruct y as [|y]; [reflexivity|try lia])|try lia])|try lia]).
      * rewrite !plus_IZR, !mult_IZR, <- !INR_IZR_INZ. ring.
      * rewrite Rabs_pos_eq by lra. lra.
    + apply (exact_value _ _ _ (Z.of_nat x * 1 * (Z.of_nat x * 1) + Z.of_nat y * 2 * (Z.of_nat y * 2))%Z).
      * apply int_checked. clear - Hx Hy. repeat (destruct x as [|x]; [repeat (destruct y as [|y]; [reflexivity|try lia])|try lia]).
      * rewrite !plus_IZR, !mult_IZR, <- !INR_IZR_INZ. ring.
      * rewrite Rabs_pos_eq by lra. lra.
  - vm_compute. reflexivity.
Qed.
