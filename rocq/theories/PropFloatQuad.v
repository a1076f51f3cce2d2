(** Property C92: the quadrature rules in double arithmetic: tables, function values, products and sums are all rounded.
    [double], [finite], [real], [nearest], [u64] = 2^-53, [eta64] = 2^-1075: FloatSpec.v; [rules], [integral], [degree], [in_simplex],
    [abs_total]: QuadSpec.v; [poly k d c]: the polynomial of degree at most d with the coefficients c (ShapeSpec.v). *)
From Coq Require Import List Arith Bool ZArith Reals Lia Lra SpecFloat.
From Coquelicot Require Import Coquelicot.
From Verif Require Import Base BaseProofs Num NumInst ExampleBase ShapeSpec QuadModel QuadSpec QuadProofs FloatSpec FloatProofs FloatQuad.
Import ListNotations.
Local Open Scope R_scope.
Open Scope res_scope.

(** ** C92 *)
(** The literals z / 10^k of the model are the doubles the compiler reads: the nearest ones. *)
Theorem C92_literals : forall z k, (Z.abs z <= 2 ^ 53)%Z -> (k <= 15)%nat -> finite (@dec NumF64 z k) /\ nearest (@dec NumF64 z k) (IZR z / 10 ^ k).
Proof. exact literal. Qed.
(** The tables on doubles are the exact tables up to one unit roundoff, and the points lie in the simplex. *)
Theorem C92_points : forall k o, In (k, o) rules -> length (@gl_points NumF64 k o) = length (@gl_points NumR k o) /\
  (forall p, In p (@gl_points NumF64 k o) -> length p = k /\ in_simplex (map real p)) /\
  forall i j, (i < length (@gl_points NumR k o))%nat -> (j < k)%nat ->
    let x := nth j (nth i (@gl_points NumF64 k o) []) n0 in let r := nth j (nth i (@gl_points NumR k o) []) 0 in
    double x /\ finite x /\ Rabs (real x - r) <= u64 * Rabs r.
Proof.
  intros k o Hr. destruct (points_count k o Hr) as (L & _). split; [exact L|]. split; [intros p Hp; now apply (points_simplex k o)|].
  intros i j Hi Hj. pose proof (Forall2_nth_ _ _ _ i [] [] (points_close k o Hr) Hi) as A.
  apply (Forall2_nth_ around); auto. now rewrite (proj1 (points_in k o _ Hr (nth_In _ _ Hi))).
Qed.
Theorem C92_weights : forall k o, In (k, o) rules -> exists (ws : list NumF64) (Ws : list R), gl_weights k o = Ok ws /\ gl_weights (N := NumR) k o = Ok Ws /\
  forall i, (i < length (@gl_points NumR k o))%nat -> let x := nth i ws n0 in let r := nth i Ws 0 in
    double x /\ finite x /\ Rabs (real x - r) <= u64 * Rabs r.
Proof.
  intros k o Hr. exists (nweights k o), (@nweights NumR k o). split; [now apply weights_ok|]. split; [now apply (@weights_ok NumR)|].
  intros i Hi. apply (Forall2_nth_ around); [now apply weights_close|]. destruct (points_count k o Hr) as (_ & _ & L). exact (eq_ind_r (fun n => (i < n)%nat) Hi L).
Qed.
(** eval on doubles against the integral I of g: if a polynomial of the degree of the rule is within t of g on the simplex and the
    function called returns g up to d at the points (as doubles), the result is finite and within
    1.2 d + 2.3 t + 4e-15 (sum of the absolute coefficients) + 5 * 2^-1075 of I. *)
Theorem C92_best : forall k o (f : list NumF64 -> NumF64) (g : list R -> R) (c : list R) (I d t : R), In (k, o) rules ->
  length c = length (exponents k (degree k o)) -> integral k g I ->
  (forall p, length p = k -> in_simplex p -> Rabs (g p - @poly NumR k (degree k o) c p) <= t) ->
  (forall p, In p (@gl_points NumF64 k o) -> double (f p) /\ finite (f p) /\ Rabs (real (f p) - g (map real p)) <= d) ->
  abs_total c + d + t <= powerRZ 2 999 ->
  exists v, q_eval (N := NumF64) k o (fun p => Ok (f p)) n0 = Ok v /\ double v /\ finite v /\
    Rabs (real v - I) <= 12 / 10 * d + 23 / 10 * t + 4 / 10 ^ 15 * abs_total c + 5 * eta64.
Proof. exact eval_best_float. Qed.
(** A function without negative values has no negative result, except for the third triangle rule (C57). *)
Theorem C92_positive : forall k o (f : list NumF64 -> NumF64), In (k, o) rules -> (k, o) <> (2, 3)%nat ->
  (forall p, In p (@gl_points NumF64 k o) -> double (f p) /\ 0 <= real (f p)) ->
  exists v, q_eval (N := NumF64) k o (fun p => Ok (f p)) n0 = Ok v /\ (finite v -> 0 <= real v).
Proof. exact eval_nonneg_float. Qed.

(** x^2 on the triangle with the three point rule: d = t = 0, the integral is 1/12. *)
Definition ex92 (p : list NumF64) : NumF64 := (nth 0 p n0 * nth 0 p n0)%num.
Lemma p54 : powerRZ 2 (-54) = u64 * / 2.
Proof. unfold u64. change (-54)%Z with (-53 + -1)%Z. rewrite powerRZ_add by lra. apply Rmult_eq_compat_l. cbn. f_equal. change (Pos.to_nat 1) with 1%nat. ring. Qed.
Example C92_example : In (2, 2)%nat rules /\ length [0; 0; 0; 0; 0; 1] = length (exponents 2 (degree 2 2)) /\ integral 2 (fun p => nth 0 p 0 ^ 2) (1 / 12) /\
  (forall p, length p = 2%nat -> in_simplex p -> Rabs (nth 0 p 0 ^ 2 - @poly NumR 2 (degree 2 2) [0; 0; 0; 0; 0; 1] p) <= 0) /\
  (forall p, In p (@gl_points NumF64 2 2) -> double (ex92 p) /\ finite (ex92 p) /\ Rabs (real (ex92 p) - nth 0 (map real p) 0 ^ 2) <= 0) /\
  abs_total [0; 0; 0; 0; 0; 1] + 0 + 0 <= powerRZ 2 999.
Proof.
  split; [cbn; auto 6|]. split; [reflexivity|]. split; [|split; [|split]].
  - exists (fun x => (1 - x) * x ^ 2). split.
    + intros x _. cbn [nth]. pose proof (is_RInt_const 0 (1 - x) (x ^ 2)) as E. unfold scal in E; cbn in E. unfold mult in E; cbn in E.
      replace ((1 - x) * x ^ 2) with ((1 - x - 0) * (x * (x * 1))) by (cbn; ring). exact E.
    + assert (E : is_RInt (fun x => (1 - x) * x ^ 2) 0 1 (minus (1 ^ 3 / 3 - 1 ^ 4 / 4) (0 ^ 3 / 3 - 0 ^ 4 / 4))).
      { apply (is_RInt_derive (fun x => x ^ 3 / 3 - x ^ 4 / 4) (fun x => (1 - x) * x ^ 2)).
        - intros x _. auto_derive; auto. field.
        - intros x _. apply (ex_derive_continuous (fun x => (1 - x) * x ^ 2)). auto_derive. auto. }
      replace (1 / 12) with (minus (1 ^ 3 / 3 - 1 ^ 4 / 4) (0 ^ 3 / 3 - 0 ^ 4 / 4)); auto. unfold minus, plus, opp; cbn. field.
  - intros p Hp _. destruct p as [|x [|y [|]]]; try discriminate. cbn [nth]. set (q := @poly NumR 2 (degree 2 2) [0; 0; 0; 0; 0; 1] [x; y]).
    assert (Eq : q = x ^ 2).
    { unfold q, poly. cbn [degree exponents seq flat_map map app Nat.sub Nat.mul combine fold_right fst snd monomial npow]. cbn [nadd nmul n0 n1 NumR]. change (T NumR) with R. ring. }
    rewrite Eq, Rminus_diag_eq, Rabs_R0 by reflexivity. lra.
  - intros p Hp. assert (H0 : real (ex92 [n0; @dec NumF64 5 1]) = 0) by reflexivity.
    assert (H1 : forall y, real (ex92 [@dec NumF64 5 1; y]) = 1 / 4).
    { intros y. unfold ex92. cbn [nth]. replace (@dec NumF64 5 1 * @dec NumF64 5 1)%num with (S754_finite false 4503599627370496 (-54) : NumF64) by (vm_compute; reflexivity).
      unfold real. rewrite p54.
      rewrite u64_inv. cbn. lra. }
    unfold gl_points in Hp. cbn [gl_table fst In] in Hp. destruct Hp as [<-|[<-|[<-|[]]]]; (split; [vm_compute; reflexivity|]); (split; [vm_compute; exact I|]); cbn [map nth].
    + rewrite H0, real_zero. replace (0 - 0 ^ 2) with 0 by ring. rewrite Rabs_R0. lra.
    + rewrite H1, half. replace (1 / 4 - (1 / 2) ^ 2) with 0 by field. rewrite Rabs_R0. lra.
    + rewrite H1, half. replace (1 / 4 - (1 / 2) ^ 2) with 0 by field. rewrite Rabs_R0. lra.
  - unfold abs_total. cbn [fold_right]. rewrite Rabs_R0, Rabs_R1. assert (1 <= powerRZ 2 999) by (apply (pow_R1_Rle 2 999); lra). lra.
Qed.
Example C92_example_value : (let* v := q_eval (N := NumF64) 2 2 (fun p => Ok (ex92 p)) n0 in Ok (v : SpecFloat.spec_float)) = Ok (S754_finite false 6004799503160655 (-56)).
Proof. vm_compute. reflexivity. Qed.
