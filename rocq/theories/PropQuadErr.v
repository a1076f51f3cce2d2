(** Property C78: the error of the quadrature rules for integrands that are not polynomials.  Exact real arithmetic on the
    decimal tables of the code; rounding is the subject of C72 - C75. *)
From Coq Require Import List Arith Bool ZArith Reals Lia Lra.
From Coquelicot Require Import Coquelicot.
From Verif Require Import Base Num NumInst ShapeSpec QuadModel QuadSpec QuadProofs AccuracySpec GridTaylor QuadError.
Import ListNotations.
Local Open Scope R_scope.

(** ** C78 *)
(** Every rule of quadrature/GaussLegendreQuadratureFactory.inl: if some polynomial of the degree of the rule (coefficients c) is within d of f on the
    whole simplex, the number computed is within 2.1 d + 2e-15 (sum of |c|) of the integral of f. *)
Theorem C78_best : forall k o (f : list R -> R) (c : list R) (I d : R), In (k, o) rules -> length c = length (exponents k (degree k o)) ->
  integral k f I ->
  (forall p, length p = k -> in_simplex p -> Rabs (f p - @poly NumR k (degree k o) c p) <= d) ->
  exists v : R, q_eval (N := NumR) k o (fun p => Ok (f p)) 0 = Ok v /\ Rabs (v - I) <= 21 / 10 * d + 2 / 10 ^ 15 * abs_total c.
Proof. exact eval_best. Qed.

(** One dimension, o points: on an interval [a, a+h] the error is of order h^(2o+1) for a function with 2o derivatives
    ([derivatives a b M n F]: F 1, ..., F n are the derivatives of F 0 on [a,b] and |F n| <= M), plus the error of the table. *)
Theorem C78_line : forall o (F : nat -> R -> R) (a h M I : R), (o = 1 \/ o = 2 \/ o = 3)%nat -> 0 < h ->
  derivatives a (a + h) M (2 * o) F -> is_RInt (F 0%nat) a (a + h) I ->
  exists v : R, q_eval (N := NumR) 1 o (fun p => Ok (F 0%nat (a + h * nth 0 p 0))) 0 = Ok v /\
    Rabs (h * v - I) <= h * (21 / 10 * (M * h ^ (2 * o) / INR (fact (2 * o))) +
      2 / 10 ^ 15 * fold_right Rplus 0 (map (fun i => Rabs (F i a) * h ^ i / INR (fact i)) (seq 0 (2 * o)))).
Proof. exact line_error. Qed.

(** x^3 on the triangle with the three point rule of degree 2: 3/2 x^2 - 9/16 x + 1/32 is within 1/32 of it, the integral is 1/20. *)
Example C78_best_example : In (2, 2)%nat rules /\ length [1 / 32; 0; 0; - 9 / 16; 0; 3 / 2] = length (exponents 2 (degree 2 2)) /\
  integral 2 (fun p => nth 0 p 0 ^ 3) (1 / 20) /\
  forall p, length p = 2%nat -> in_simplex p -> Rabs (nth 0 p 0 ^ 3 - @poly NumR 2 (degree 2 2) [1 / 32; 0; 0; - 9 / 16; 0; 3 / 2] p) <= 1 / 32.
Proof.
  split; [cbn; auto 6|]. split; [reflexivity|]. split.
  - exists (fun x => (1 - x) * x ^ 3). split.
    + intros x _. cbn [nth]. pose proof (is_RInt_const 0 (1 - x) (x ^ 3)) as E. unfold scal in E; cbn in E. unfold mult in E; cbn in E.
      replace ((1 - x) * x ^ 3) with ((1 - x - 0) * (x * (x * (x * 1)))) by (cbn; ring). exact E.
    + assert (E : is_RInt (fun x => (1 - x) * x ^ 3) 0 1 (minus (1 ^ 4 / 4 - 1 ^ 5 / 5) (0 ^ 4 / 4 - 0 ^ 5 / 5))).
      { apply (is_RInt_derive (fun x => x ^ 4 / 4 - x ^ 5 / 5) (fun x => (1 - x) * x ^ 3)).
        - intros x _. auto_derive; auto. field.
        - intros x _. apply (ex_derive_continuous (fun x => (1 - x) * x ^ 3)). auto_derive. auto. }
      replace (1 / 20) with (minus (1 ^ 4 / 4 - 1 ^ 5 / 5) (0 ^ 4 / 4 - 0 ^ 5 / 5)); auto. unfold minus, plus, opp; cbn. field.
  - intros p Hp [P1 P2]. destruct p as [|x [|y [|]]]; try discriminate. inversion P1 as [|? ? Px P1']; subst. inversion P1' as [|? ? Py ?]; subst. cbn in P2.
    cbn [nth]. set (q := @poly NumR 2 (degree 2 2) [1 / 32; 0; 0; - 9 / 16; 0; 3 / 2] [x; y]).
    assert (Eq : q = 3 / 2 * x ^ 2 - 9 / 16 * x + 1 / 32).
    { unfold q, poly. cbn [degree exponents seq flat_map map app Nat.sub Nat.mul combine fold_right fst snd monomial npow]. cbn [nadd nmul n0 n1 NumR]. change (T NumR) with R. field. }
    rewrite Eq. clear q Eq. assert (A : 0 <= x * (x - 3 / 4) ^ 2) by (apply Rmult_le_pos; [lra|apply pow2_ge_0]).
    assert (B : 0 <= (1 - x) * (x - 1 / 4) ^ 2) by (apply Rmult_le_pos; [lra|apply pow2_ge_0]). apply Rabs_le. split; nra.
Qed.

(** exp on [0, 1/2] with three points: M = 2. *)
Example C78_line_example : derivatives 0 (0 + 1 / 2) 2 (2 * 3) (fun _ => exp) /\ is_RInt exp 0 (0 + 1 / 2) (exp (1 / 2) - 1).
Proof.
  split; [split|].
  - intros i t _ _. apply derivable_pt_lim_exp.
  - intros t Ht. rewrite Rabs_pos_eq by (left; apply exp_pos). assert (E : exp t * exp t <= 4).
    { rewrite <- exp_plus. apply Rle_trans with (exp 1); [destruct (Req_dec (t + t) 1) as [->|Nt]; [lra|left; apply exp_increasing; lra]|]. pose proof exp_le_3. lra. }
    pose proof (exp_pos t). nra.
  - replace (0 + 1 / 2) with (1 / 2) by ring. replace (exp (1 / 2) - 1) with (minus (exp (1 / 2)) (exp 0)) by (rewrite exp_0; reflexivity). apply (is_RInt_derive exp exp).
    + intros x _. apply is_derive_exp.
    + intros x _. apply (ex_derive_continuous exp). exists (exp x). apply is_derive_exp.
Qed.
