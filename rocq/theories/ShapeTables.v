(** Triangles of order 3 and tetrahedra of order 2: what the tables would give if there were ten node values (over the reals).
    The calls themselves always abort, because DOF is 9 and 8 (C54_cubic_refuted, C54_tetra_refuted). *)
From Coq Require Import List Arith Bool ZArith Reals Lia Lra.
From Verif Require Import Base BaseProofs Num NumInst OrdField UtilsSpec UtilsInst VectorModel ShapeModel ShapeSpec ShapeProofs ShapeDeriv.
Import ListNotations.
Local Open Scope nat_scope.
Open Scope res_scope.

(** x0 ... x9 of the drawing above PSF_Coeff_2D_3 (PolyShapeFunction.inl:41-48); for tetrahedra there is no drawing: corners, then the
    midpoints of x0x1, x1x2, x0x2, x1x3, x0x3, x2x3. *)
Definition nodes10 (k : nat) : list (list R) :=
  let t := (1 / 3)%R in let s := (2 / 3)%R in let h := (1 / 2)%R in
  match k with
  | 2 => [[0;0]; [1;0]; [0;1]; [t;0]; [s;0]; [s;t]; [t;s]; [0;s]; [0;t]; [t;t]]%R
  | _ => [[0;0;0]; [1;0;0]; [0;1;0]; [0;0;1]; [h;0;0]; [h;h;0]; [0;h;0]; [h;0;h]; [0;0;h]; [0;h;h]]%R
  end.
Definition order10 (k : nat) : nat := match k with 2 => 3 | _ => 2 end.

Lemma cubic (f : R -> R) (a b c d x l : R) : (forall t, f t = a + b * t + c * (t * t) + d * (t * t * t))%R ->
  (l = b + c * (2 * x) + d * (3 * (x * x)))%R -> derivable_pt_lim f x l.
Proof.
  intros H ->. assert (D : derivable_pt_lim (fun t => a + b * t + c * (t * t) + d * (t * t * t))%R x (0 + b * 1 + c * (1 * x + x * 1) + d * ((1 * x + x * 1) * x + x * x * 1))%R).
  { apply (derivable_pt_lim_plus (fun t => a + b * t + c * (t * t))%R (fun t => d * (t * t * t))%R).
    - apply (derivable_pt_lim_plus (fun t => a + b * t)%R (fun t => c * (t * t))%R).
      + apply (derivable_pt_lim_plus (fun _ => a) (fun t => b * t)%R); [apply derivable_pt_lim_const|].
        apply (derivable_pt_lim_scal (fun t => t)). apply derivable_pt_lim_id.
      + apply (derivable_pt_lim_scal (fun t => t * t)%R). apply (derivable_pt_lim_mult (fun t => t) (fun t => t)); apply derivable_pt_lim_id.
    - apply (derivable_pt_lim_scal (fun t => t * t * t)%R). apply (derivable_pt_lim_mult (fun t => t * t)%R (fun t => t)); [|apply derivable_pt_lim_id].
      apply (derivable_pt_lim_mult (fun t => t) (fun t => t)); apply derivable_pt_lim_id. }
  replace (b + c * (2 * x) + d * (3 * (x * x)))%R with (0 + b * 1 + c * (1 * x + x * 1) + d * ((1 * x + x * 1) * x + x * x * 1))%R by ring.
  intros eps He. destruct (D eps He) as (del & Hd). exists del. intros h H0 H1. rewrite !H. now apply Hd.
Qed.
Lemma chR (z : Z) : @ch NumR z = (IZR z / 2)%R.
Proof. unfold ch. rewrite czR. reflexivity. Qed.
Lemma nof3 : @nofnat NumR 3 = 3%R. Proof. cbn. lra. Qed.
Lemma nof6 : @nofnat NumR 6 = 6%R. Proof. cbn. lra. Qed.
Ltac ops10 := change (@nadd NumR) with Rplus in *; change (@nmul NumR) with Rmult in *; change (@n1 NumR) with 1%R in *; change (@n0 NumR) with 0%R in *;
  change (@nofnat NumR 2) with 2%R in *; rewrite ?nof3, ?nof6; rewrite ?chR, ?czR; change (T NumR) with R in *.
Ltac comp10 := cbv [sf_value_nv sf_gradient_nv sf_gradient2_nv sf_sum sf_term sf_fill v_set vset bind assert_ foreach vget nth_error
   coeff_2D_3 coeff_3D_2 map fst snd v_at v_size v_new upd length repeat Nat.ltb Nat.leb Nat.eqb nth order10].
Theorem tables_nodal k i j : k = 2 \/ k = 3 -> i < 10 -> j < 10 ->
  sf_value_nv (N := NumR) k (order10 k) i (nth j (nodes10 k) []) (repeat 1%R 10) = Ok (if i =? j then 1 else 0)%R.
Proof.
  intros [-> | ->] Hi Hj; repeat (destruct i as [|i]; [|try lia]); try lia; repeat (destruct j as [|j]; [|try lia]); try lia;
  (comp10; cbv [nodes10]; ops10; f_equal; field).
Qed.
Ltac ten l := destruct l as [|?c [|?c [|?c [|?c [|?c [|?c [|?c [|?c [|?c [|?c [|]]]]]]]]]]]; try discriminate.
Lemma row10 {A} (tab : list (list A)) i : length tab = 10 -> (forall r, In r tab -> length r = 10) -> i < 10 -> exists r, vget tab i = Ok r /\ length r = 10.
Proof.
  intros Hl Hr Hi. unfold vget. destruct (nth_error tab i) as [r|] eqn:E; [|apply nth_error_None in E; lia]. exists r. split; auto. apply Hr. now apply nth_error_In in E.
Qed.
Ltac openrow V := cbv [sf_fill sf_sum sf_term bind assert_ foreach]; rewrite !V; cbv [v_at v_size v_set vset v_new upd length repeat nth nth_error vget Nat.ltb Nat.leb Nat.eqb assert_ bind foreach snd];
  ops10; repeat (match goal with |- Ok _ = Ok _ => f_equal | |- _ :: _ = _ :: _ => f_equal end); try ring.
Lemma table23 i (nv : list R) : i < 10 -> length nv = 10 -> exists p0 p1 p2 p3 p4 p5 p6 p7 p8 p9 : R, forall a b,
  sf_value_nv (N := NumR) 2 3 i [a; b] nv = Ok (p0 + p1*a + p2*b + p3*a*b + p4*a*a + p5*b*b + p6*a*a*b + p7*a*b*b + p8*a*a*a + p9*b*b*b)%R /\
  sf_gradient_nv (N := NumR) 2 3 i [a; b] nv = Ok [p1 + p3*b + 2*p4*a + 2*p6*a*b + p7*b*b + 3*p8*a*a; p2 + p3*a + 2*p5*b + p6*a*a + 2*p7*a*b + 3*p9*b*b]%R /\
  sf_gradient2_nv (N := NumR) 2 3 i [a; b] nv = Ok [2*p4 + 2*p6*b + 6*p8*a; 2*p5 + 2*p7*b + 6*p9*b]%R.
Proof.
  intros Hi Hn. assert (Hlt : (i <? 10) = true) by now apply Nat.ltb_lt.
  destruct (row10 (@coeff_2D_3 NumR) i) as (r & V & L); auto.
  { cbn [coeff_2D_3 map In]; intros r Hr; repeat (destruct Hr as [<- | Hr]; [reflexivity|]); destruct Hr. }
  unfold sf_value_nv, sf_gradient_nv, sf_gradient2_nv. rewrite Hlt. set (t := @coeff_2D_3 NumR) in *. clearbody t.
  clear Hlt Hi.
  destruct nv as [|v0 [|v1 [|v2 [|v3 [|v4 [|v5 [|v6 [|v7 [|v8 [|v9 [|]]]]]]]]]]]; try discriminate. clear Hn.
  destruct r as [|q0 [|q1 [|q2 [|q3 [|q4 [|q5 [|q6 [|q7 [|q8 [|q9 [|]]]]]]]]]]]; try discriminate. clear L.
  exists (v0*q0)%R, (v1*q1)%R, (v2*q2)%R, (v3*q3)%R, (v4*q4)%R, (v5*q5)%R, (v6*q6)%R, (v7*q7)%R, (v8*q8)%R, (v9*q9)%R.
  intros a b. repeat split; openrow V.
Qed.
Lemma table32 i (nv : list R) : i < 10 -> length nv = 10 -> exists p0 p1 p2 p3 p4 p5 p6 p7 p8 p9 : R, forall a b c,
  sf_value_nv (N := NumR) 3 2 i [a; b; c] nv = Ok (p0 + p1*a + p2*b + p3*c + p4*a*b + p5*a*c + p6*b*c + p7*a*a + p8*b*b + p9*c*c)%R /\
  sf_gradient_nv (N := NumR) 3 2 i [a; b; c] nv = Ok [p1 + p4*b + p5*c + 2*p7*a; p2 + p4*a + p6*c + 2*p8*b; p3 + p5*a + p6*b + 2*p9*c]%R /\
  sf_gradient2_nv (N := NumR) 3 2 i [a; b; c] nv = Ok [2*p7; 2*p8; 2*p9]%R.
Proof.
  intros Hi Hn. assert (Hlt : (i <? 10) = true) by now apply Nat.ltb_lt.
  destruct (row10 (@coeff_3D_2 NumR) i) as (r & V & L); auto.
  { cbn [coeff_3D_2 map In]; intros r Hr; repeat (destruct Hr as [<- | Hr]; [reflexivity|]); destruct Hr. }
  unfold sf_value_nv, sf_gradient_nv, sf_gradient2_nv. rewrite Hlt. set (t := @coeff_3D_2 NumR) in *. clearbody t.
  clear Hlt Hi.
  destruct nv as [|v0 [|v1 [|v2 [|v3 [|v4 [|v5 [|v6 [|v7 [|v8 [|v9 [|]]]]]]]]]]]; try discriminate. clear Hn.
  destruct r as [|q0 [|q1 [|q2 [|q3 [|q4 [|q5 [|q6 [|q7 [|q8 [|q9 [|]]]]]]]]]]]; try discriminate. clear L.
  exists (v0*q0)%R, (v1*q1)%R, (v2*q2)%R, (v3*q3)%R, (v4*q4)%R, (v5*q5)%R, (v6*q6)%R, (v7*q7)%R, (v8*q8)%R, (v9*q9)%R.
  intros a b c. repeat split; openrow V.
Qed.

Theorem tetra_derivs i (nv : list R) : i < 10 -> length nv = 10 -> exists (f : list R -> R) (G D : list R -> list R),
    (forall y, length y = 3 -> sf_value_nv (N := NumR) 3 2 i y nv = Ok (f y) /\ sf_gradient_nv (N := NumR) 3 2 i y nv = Ok (G y) /\ sf_gradient2_nv (N := NumR) 3 2 i y nv = Ok (D y)) /\
    forall x, length x = 3 -> partials f x (G x) /\ second_partials G x (D x).
Proof.
  intros Hi Hn. destruct (table32 i nv Hi Hn) as (p0 & p1 & p2 & p3 & p4 & p5 & p6 & p7 & p8 & p9 & E).
  exists (fun y => match y with [a; b; c] => p0 + p1*a + p2*b + p3*c + p4*a*b + p5*a*c + p6*b*c + p7*a*a + p8*b*b + p9*c*c | _ => 0 end)%R.
  exists (fun y => match y with [a; b; c] => [p1 + p4*b + p5*c + 2*p7*a; p2 + p4*a + p6*c + 2*p8*b; p3 + p5*a + p6*b + 2*p9*c] | _ => [] end)%R.
  exists (fun _ => [2*p7; 2*p8; 2*p9]%R). split.
  - intros y Hy. destruct y as [|a [|b [|c [|]]]]; try discriminate. apply E.
  - intros x Hx. destruct x as [|a [|b [|c [|]]]]; try discriminate. clear E Hx Hn Hi.
    split; (split; [reflexivity|]); cbn [length]; intros k Hk; repeat (destruct k as [|k]; [|try lia]); try lia; cbn [upd nth].
    + apply (cubic _ (p0 + p2*b + p3*c + p6*b*c + p8*b*b + p9*c*c) (p1 + p4*b + p5*c) p7 0)%R; [intros t; ring|ring].
    + apply (cubic _ (p0 + p1*a + p3*c + p5*a*c + p7*a*a + p9*c*c) (p2 + p4*a + p6*c) p8 0)%R; [intros t; ring|ring].
    + apply (cubic _ (p0 + p1*a + p2*b + p4*a*b + p7*a*a + p8*b*b) (p3 + p5*a + p6*b) p9 0)%R; [intros t; ring|ring].
    + apply (cubic _ (p1 + p4*b + p5*c) (2*p7) 0 0)%R; [intros t; ring|ring].
    + apply (cubic _ (p2 + p4*a + p6*c) (2*p8) 0 0)%R; [intros t; ring|ring].
    + apply (cubic _ (p3 + p5*a + p6*b) (2*p9) 0 0)%R; [intros t; ring|ring].
Qed.
Theorem cubic_derivs i (nv : list R) : i < 10 -> length nv = 10 -> exists (f : list R -> R) (G D : list R -> list R),
    (forall y, length y = 2 -> sf_value_nv (N := NumR) 2 3 i y nv = Ok (f y) /\ sf_gradient_nv (N := NumR) 2 3 i y nv = Ok (G y) /\ sf_gradient2_nv (N := NumR) 2 3 i y nv = Ok (D y)) /\
    forall x, length x = 2 -> partials f x (G x) /\
      derivable_pt_lim (fun t => nth 0 (G (upd x 0 t)) 0%R) (nth 0 x 0%R) (nth 0 (D x) 0%R) /\ (nth 0 x 0%R = nth 1 x 0%R -> second_partials G x (D x)).
Proof.
  intros Hi Hn. destruct (table23 i nv Hi Hn) as (p0 & p1 & p2 & p3 & p4 & p5 & p6 & p7 & p8 & p9 & E).
  exists (fun y => match y with [a; b] => p0 + p1*a + p2*b + p3*a*b + p4*a*a + p5*b*b + p6*a*a*b + p7*a*b*b + p8*a*a*a + p9*b*b*b | _ => 0 end)%R.
  exists (fun y => match y with [a; b] => [p1 + p3*b + 2*p4*a + 2*p6*a*b + p7*b*b + 3*p8*a*a; p2 + p3*a + 2*p5*b + p6*a*a + 2*p7*a*b + 3*p9*b*b] | _ => [] end)%R.
  exists (fun y => match y with [a; b] => [2*p4 + 2*p6*b + 6*p8*a; 2*p5 + 2*p7*b + 6*p9*b] | _ => [] end)%R. split.
  - intros y Hy. destruct y as [|a [|b [|]]]; try discriminate. apply E.
  - intros x Hx. destruct x as [|a [|b [|]]]; try discriminate. clear E Hx Hn Hi.
    assert (D0 : derivable_pt_lim (fun t => p1 + p3*b + 2*p4*t + 2*p6*t*b + p7*b*b + 3*p8*t*t)%R a (2*p4 + 2*p6*b + 6*p8*a)%R).
    { apply (cubic _ (p1 + p3*b + p7*b*b) (2*p4 + 2*p6*b) (3*p8) 0)%R; [intros t; ring|ring]. }
    split; [|split].
    + split; [reflexivity|]; cbn [length]; intros k Hk; repeat (destruct k as [|k]; [|try lia]); try lia; cbn [upd nth].
      * apply (cubic _ (p0 + p2*b + p5*b*b + p9*b*b*b) (p1 + p3*b + p7*b*b) (p4 + p6*b) p8)%R; [intros t; ring|ring].
      * apply (cubic _ (p0 + p1*a + p4*a*a + p8*a*a*a) (p2 + p3*a + p6*a*a) (p5 + p7*a) p9)%R; [intros t; ring|ring].
    + exact D0.
    + cbn [nth]. intros Hab. split; [reflexivity|]; cbn [length]; intros k Hk; repeat (destruct k as [|k]; [|try lia]); try lia; cbn [upd nth].
      * exact D0.
      * apply (cubic _ (p2 + p3*a + p6*a*a) (2*p5 + 2*p7*a) (3*p9) 0)%R; [intros t; ring|rewrite Hab; ring].
Qed.
(** Function 6 of order 3 is 27/2 x y^2 - 9/2 x y; its second derivative in y is 27 x, gradient2 has 27 y. *)
Theorem cubic_second_wrong : exists G : list R -> list R, (forall y, length y = 2 -> sf_gradient_nv (N := NumR) 2 3 6 y (repeat 1%R 10) = Ok (G y)) /\
  sf_gradient2_nv (N := NumR) 2 3 6 [1; 0]%R (repeat 1%R 10) = Ok [0; 0]%R /\ derivable_pt_lim (fun t => nth 1 (G (upd [1; 0]%R 1 t)) 0%R) 0%R 27%R.
Proof.
  exists (fun y => match y with [a; b] => [- (9 / 2) * b + 27 / 2 * b * b; - (9 / 2) * a + 27 * a * b] | _ => [] end)%R. split; [|split].
  - intros y Hy. destruct y as [|a [|b [|]]]; try discriminate. comp10. ops10. f_equal. f_equal; [field|]. f_equal. field.
  - comp10. ops10. f_equal. f_equal; [field|]. f_equal. field.
  - cbn [upd nth]. apply (cubic _ (- (9 / 2)) 27 0 0)%R; [intros t; field|field].
Qed.
