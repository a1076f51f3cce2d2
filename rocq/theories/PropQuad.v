(** Property C57: Gauss-Legendre quadrature on the standard line and triangle.  [rules]: the (dimension, order) pairs;
    [integral], [degree], [in_simplex], [abs_total]: QuadSpec.v; [poly k d c]: the polynomial of degree at most d in k variables
    with the coefficients c (ShapeSpec.v). *)
From Coq Require Import List Arith Bool ZArith QArith Reals Lia Lra.
From Verif Require Import Base BaseProofs Num NumInst OrdField Spec ExampleBase ShapeSpec QuadModel QuadSpec QuadProofs.
Import ListNotations.
Local Open Scope nat_scope.
Open Scope res_scope.

(** ** C57 *)
(** eval_index(f, start) = start + the sum of weight i times f(i, point i), over all points. *)
Theorem C57_sum (N : Num) (HF : FieldLaws N) : forall k o f (s : N), In (k, o) rules -> exists ws, gl_weights k o = Ok ws /\ length ws = length (@gl_points N k o) /\
  q_eval_index k o (fun i p => Ok (f i p)) s = Ok (s + bigsum (length ws) (fun i => nth i ws n0 * f i (nth i (gl_points k o) [])))%num.
Proof. exact (eval_sum HF). Qed.
(** eval is eval_index with a function that ignores the index. *)
Theorem C57_index (N : Num) : forall k o f (s : N), q_eval k o f s = q_eval_index k o (fun _ => f) s.
Proof. exact eval_is_index. Qed.
Theorem C57_linear (N : Num) (HF : FieldLaws N) : forall k o a b f g, In (k, o) rules -> exists u v : N,
  q_eval k o (fun p => Ok (f p)) n0 = Ok u /\ q_eval k o (fun p => Ok (g p)) n0 = Ok v /\ q_eval k o (fun p => Ok (a * f p + b * g p)%num) n0 = Ok (a * u + b * v)%num.
Proof. exact (eval_linear HF). Qed.
Theorem C57_start (N : Num) (HF : FieldLaws N) : forall k o f (s : N), In (k, o) rules -> exists u : N,
  q_eval k o (fun p => Ok (f p)) n0 = Ok u /\ q_eval k o (fun p => Ok (f p)) s = Ok (s + u)%num.
Proof. exact (eval_start HF). Qed.
(** The function is only called at points of the simplex. *)
Theorem C57_points : forall k o p, In (k, o) rules -> In p (@gl_points NumR k o) -> length p = k /\ in_simplex p.
Proof. exact points_in. Qed.
(** Every polynomial of the rule's degree is integrated up to 2e-15 times the sum of the absolute coefficients. *)
Theorem C57_exact : forall k o (c : list R) I, In (k, o) rules -> length c = length (exponents k (degree k o)) -> integral k (@poly NumR k (degree k o) c) I ->
  returns (q_eval (N := NumR) k o (fun p => Ok (@poly NumR k (degree k o) c p)) 0%R) (fun v => Rabs (v - I) <= 2 / 10 ^ 15 * abs_total c)%R.
Proof. exact eval_exact. Qed.
Theorem C57_integrable : forall k o (c : list R), In (k, o) rules -> exists I, integral k (@poly NumR k (degree k o) c) I.
Proof. exact integrable. Qed.
(** Not so for the next degree: some polynomial is off by at least 1e-4. *)
Theorem C57_degree : forall k o, In (k, o) rules -> exists (c : list R) I v, length c = length (exponents k (S (degree k o))) /\ integral k (@poly NumR k (S (degree k o)) c) I /\
  q_eval (N := NumR) k o (fun p => Ok (@poly NumR k (S (degree k o)) c p)) 0%R = Ok v /\ (1 / 10 ^ 4 <= Rabs (v - I))%R.
Proof. exact degree_sharp. Qed.
(** The weights sum to the volume of the simplex, up to 2e-15. *)
Theorem C57_weights : forall k o, In (k, o) rules -> returns (@gl_weights NumR k o) (fun ws => Rabs (fold_right Rplus 0 ws - @unit_volume NumR k) <= 2 / 10 ^ 15)%R.
Proof. exact weights_total. Qed.
Example C57_volumes : @unit_volume NumR 1 = 1%R /\ @unit_volume NumR 2 = (1 / 2)%R.
Proof. split; [exact vol1|exact vol2]. Qed.
(** Nonnegative functions have nonnegative results, except for the third triangle rule. *)
Theorem C57_positive : forall k o (f : list R -> R), In (k, o) rules -> (k, o) <> (2, 3) -> (forall p, length p = k -> in_simplex p -> 0 <= f p)%R ->
  returns (q_eval (N := NumR) k o (fun p => Ok (f p)) 0%R) (fun v => 0 <= v)%R.
Proof. exact eval_nonneg. Qed.
(** The third triangle rule has a negative weight: a nonnegative polynomial gets a negative integral. *)
Theorem C57_positive_refuted : exists f : list R -> R, (forall p, 0 <= f p)%R /\ returns (q_eval (N := NumR) 2 3 (fun p => Ok (f p)) 0%R) (fun v => v < 0)%R.
Proof. exists bump. exact nonneg_fails. Qed.

(** x y over the triangle: 1/24 = 0.041666..., computed with exact rationals *)
Example C57_xy : (let* v := q_eval (N := NumQc) 2 2 (fun p => match p with [x; y] => Ok (x * y)%num | _ => Abort end) n0 in Ok (Qcanon.this v)) =
  Ok (333333333333333 # 8000000000000000)%Q.
Proof. vm_compute. reflexivity. Qed.
Example C57_line : (let* v := q_eval (N := NumQc) 1 3 (fun p => match p with [x] => Ok (x * x - qz 1)%num | _ => Abort end) (qz 1) in
  Ok (Qle_bool (333333333333330 # 1000000000000000) (Qcanon.this v) && Qle_bool (Qcanon.this v) (333333333333336 # 1000000000000000))) = Ok true.
Proof. vm_compute. reflexivity. Qed.
