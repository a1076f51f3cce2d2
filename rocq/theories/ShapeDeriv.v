(** Shape functions: gradient and gradient2 are the partial derivatives (over the reals). *)
From Coq Require Import List Arith Bool ZArith Reals Lia Lra.
From Verif Require Import Base BaseProofs Num NumInst OrdField UtilsSpec UtilsInst VectorModel ShapeModel ShapeSpec ShapeProofs.
Import ListNotations.
Local Open Scope nat_scope.
Open Scope res_scope.

Lemma czR (z : Z) : @cz NumR z = IZR z.
Proof.
  destruct z as [|p|p]; cbn [cz].
  - reflexivity.
  - change (INR (Pos.to_nat p) = IZR (Zpos p)). rewrite INR_IZR_INZ, positive_nat_Z. reflexivity.
  - change (- INR (Pos.to_nat p) = IZR (Zneg p))%R. rewrite INR_IZR_INZ, positive_nat_Z. reflexivity.
Qed.
Lemma quad (f : R -> R) (x l : R) :
  (forall t, f t = f 0 + (f 1 - f (-1)) / 2 * t + ((f 1 + f (-1)) / 2 - f 0) * (t * t))%R ->
  (l = (f 1 - f (-1)) / 2 + ((f 1 + f (-1)) / 2 - f 0) * (2 * x))%R -> derivable_pt_lim f x l.
Proof.
  intros H ->. set (a := f 0%R) in *. set (b := ((f 1 - f (-1)) / 2)%R) in *. set (c := ((f 1 + f (-1)) / 2 - a)%R) in *. clearbody a b c.
  assert (D : derivable_pt_lim (fun t => a + b * t + c * (t * t))%R x (0 + b * 1 + c * (1 * x + x * 1))%R).
  { apply (derivable_pt_lim_plus (fun t => a + b * t)%R (fun t => c * (t * t))%R).
    - apply (derivable_pt_lim_plus (fun _ => a) (fun t => b * t)%R); [apply derivable_pt_lim_const|].
      apply (derivable_pt_lim_scal (fun t => t)). apply derivable_pt_lim_id.
    - apply (derivable_pt_lim_scal (fun t => t * t)%R). apply (derivable_pt_lim_mult (fun t => t) (fun t => t)); apply derivable_pt_lim_id. }
  replace (b + c * (2 * x))%R with (0 + b * 1 + c * (1 * x + x * 1))%R by ring.
  intros eps He. destruct (D eps He) as (d & Hd). exists d. intros h H0 H1. rewrite !H. now apply Hd.
Qed.
Ltac opsR := change (@nadd NumR) with Rplus in *; change (@nmul NumR) with Rmult in *; change (@n1 NumR) with 1%R in *; change (@n0 NumR) with 0%R in *;
  change (@nofnat NumR 2) with 2%R in *; change (@nofnat NumR 0) with 0%R in *; rewrite ?czR; change (T NumR) with R in *.
Ltac comp := cbv [sf_value_nv sf_gradient_nv sf_gradient2_nv sf_sum sf_term sf_fill v_set vset bind assert_ foreach vget nth_error
   coeff_1D_1 coeff_1D_2 coeff_2D_1 coeff_2D_2 coeff_3D_1 map fst snd
   v_at v_size v_new upd length repeat Nat.ltb Nat.leb Nat.eqb nth].
Definition val {A} (d : A) (r : res A) : A := match r with Ok a => a | _ => d end.
Ltac caseIn H := cbn [In] in H; repeat (destruct H as [H|H]; [injection H as <- <-|]); [..|destruct H].
Ltac lens1 x := destruct x as [|?a [|]]; try discriminate.
Ltac lens2 x := destruct x as [|?a [|?b [|]]]; try discriminate.
Ltac lens3 x := destruct x as [|?a [|?b [|?c [|]]]]; try discriminate.
Ltac finish x Hx :=
  split; (split; [reflexivity|]); cbn [length]; intros k Hk; repeat (destruct k as [|k]; [|try lia]); try lia;
  (apply quad; [intros t|]); comp; cbn [val]; opsR; field.

Theorem derivs k o i (nv : list R) : In (k, o) usable -> i < length (@nodes NumR k o) -> length nv = sf_dof k o -> ((k, o) = (2, 1) -> nth 0 nv 0%R = 1%R) ->
  exists (f : list R -> R) (G D : list R -> list R),
    (forall y, length y = k -> sf_value_nv (N := NumR) k o i y nv = Ok (f y) /\ sf_gradient_nv (N := NumR) k o i y nv = Ok (G y) /\ sf_gradient2_nv (N := NumR) k o i y nv = Ok (D y)) /\
    forall x, length x = k -> partials f x (G x) /\ second_partials G x (D x).
Proof.
  intros H Hi Hn H21. exists (fun y => val 0%R (sf_value_nv (N := NumR) k o i y nv)), (fun y => val [] (sf_gradient_nv (N := NumR) k o i y nv)), (fun y => val [] (sf_gradient2_nv (N := NumR) k o i y nv)).
  unfold usable in H. caseIn H; cbn in Hi, Hn.
  - lens2 nv. clear H21. split.
    + intros y Hy. lens1 y. repeat (destruct i as [|i]; [comp; auto|try lia]).
    + intros x Hx. lens1 x. repeat (destruct i as [|i]; [finish x Hx|try lia]).
  - destruct nv as [|n0 [|n1 [|n2 [|n3 [|]]]]]; try discriminate. clear H21. split.
    + intros y Hy. lens1 y. repeat (destruct i as [|i]; [comp; auto|try lia]).
    + intros x Hx. lens1 x. repeat (destruct i as [|i]; [finish x Hx|try lia]).
  - lens3 nv. cbn in H21. rewrite (H21 eq_refl). clear H21 Hn a. split.
    + intros y Hy. lens2 y. repeat (destruct i as [|i]; [comp; auto|try lia]).
    + intros x Hx. lens2 x. repeat (destruct i as [|i]; [finish x Hx|try lia]).
  - destruct nv as [|n0 [|n1 [|n2 [|n3 [|n4 [|n5 [|]]]]]]]; try discriminate. clear H21. split.
    + intros y Hy. lens2 y. repeat (destruct i as [|i]; [comp; auto|try lia]).
    + intros x Hx. lens2 x. repeat (destruct i as [|i]; [finish x Hx|try lia]).
  - destruct nv as [|n0 [|n1 [|n2 [|n3 [|]]]]]; try discriminate. clear H21. split.
    + intros y Hy. lens3 y. repeat (destruct i as [|i]; [comp; auto|try lia]).
    + intros x Hx. lens3 x. repeat (destruct i as [|i]; [finish x Hx|try lia]).
Qed.
Theorem derivs_plain k o i : In (k, o) usable -> i < length (@nodes NumR k o) ->
  exists (f : list R -> R) (G D : list R -> list R),
    (forall y, length y = k -> sf_value (N := NumR) k o i y = Ok (f y) /\ sf_gradient (N := NumR) k o i y = Ok (G y) /\ sf_gradient2 (N := NumR) k o i y = Ok (D y)) /\
    forall x, length x = k -> partials f x (G x) /\ second_partials G x (D x).
Proof.
  intros H Hi. destruct (derivs k o i (repeat 1%R (sf_dof k o)) H Hi) as (f & G & D & A & B).
  - apply repeat_length.
  - intros E. inversion E. reflexivity.
  - exists f, G, D. split; auto. intros y Hy. unfold sf_value, sf_gradient, sf_gradient2. rewrite (ones_is (N := NumR)). cbn [bind]. now apply A.
Qed.
Lemma grad21_wrong :
  (forall a b : R, sf_value_nv (N := NumR) 2 1 1 [a; b] [2%R; 1%R; 1%R] = Ok (2 * 0 + 1 * 1 * a + 1 * 0 * b)%R) /\
  (forall a b : R, sf_gradient_nv (N := NumR) 2 1 1 [a; b] [2%R; 1%R; 1%R] = Ok [1 * 2 * 1; 1 * 2 * 0]%R).
Proof. split; intros a b; comp; opsR; reflexivity. Qed.
