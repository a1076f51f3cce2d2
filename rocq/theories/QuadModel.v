(** Model of src/lib/quadrature: GaussLegendreQuadratureFactory.inl and Quadrature.inl. *)
From Coq Require Import List Arith Bool ZArith.
From Verif Require Import Base Num UtilsModel SimplexModel.
Import ListNotations.
Open Scope res_scope.

Section QuadModel.
Context {N : Num}.
(** The decimal literal z / 10^k.  On doubles the quotient is the double nearest to it, as the compiler reads it (C92_literals); its conversion
    to a type T other than double is not modelled: over other numbers it is the exact value. *)
Fixpoint nofpos (p : positive) : N :=
  match p with xH => n1 | xO q => let x := nofpos q in (x + x)%num | xI q => let x := nofpos q in (x + x + n1)%num end.
Fixpoint ten (k : nat) : N := match k with O => n1 | S k => (nofpos 10 * ten k)%num end.
Definition dec (z : Z) (k : nat) : N :=
  match z with Z0 => n0 | Zpos p => (nofpos p / ten k)%num | Zneg p => (- (nofpos p / ten k))%num end.
(** The tables, GaussLegendreQuadratureFactory.inl:26-89: points and weights before normalization.  Other dimensions and
    orders do not compile (static_assert, lines 21-24). *)
Definition gl_table (k o : nat) : list (list N) * list N :=
  match k, o with
  | 1, 1 => ([[dec 5 1]], [n1])
  | 1, 2 => ([[dec 211324865405187 15]; [dec 788675134594813 15]], [dec 5 1; dec 5 1])
  | 1, 3 => ([[dec 5 1]; [dec 112701665379258 15]; [dec 887298334620742 15]],
             [dec 444444444444444 15; dec 277777777777777 15; dec 277777777777777 15])
  | 2, 1 => ([[dec 333333333333333 15; dec 333333333333333 15]], [n1])
  | 2, 2 => ([[n0; dec 5 1]; [dec 5 1; n0]; [dec 5 1; dec 5 1]],
             [dec 333333333333333 15; dec 333333333333333 15; dec 333333333333333 15])
  | 2, 3 => ([[dec 333333333333333 15; dec 333333333333333 15]; [dec 2 1; dec 2 1]; [dec 2 1; dec 6 1]; [dec 6 1; dec 2 1]],
             [dec (-562500000000000) 15; dec 520833333333333 15; dec 520833333333333 15; dec 520833333333333 15])
  | _, _ => ([], [])
  end.
(** Simplex<T,K>::unitVolume(), Simplex.inl:63-67: 1.0/Math::factorial(K) ([u_factorial], Utils.h:33-38) *)
Definition unit_volume (k : nat) : N := (n1 / nofnat (Z.to_nat (u_factorial k)))%num.
(** The constructor, GaussLegendreQuadratureFactory.inl:18-96; getQuadraturePoints and getQuadratureWeights return the members. *)
Definition gl_points (k o : nat) : list (list N) := fst (gl_table k o).
Definition gl_weights (k o : nat) : res (list N) :=
  let ws := snd (gl_table k o) in
  for_ 0 (length ws) (fun i ws => let* w := vget ws i in vset ws i (w * unit_volume k)%num) ws.
(** eval_index, Quadrature.inl:28-43.  func may fail.  RT: the number type T. *)
Definition q_eval_index (k o : nat) (func : nat -> list N -> res N) (start : N) : res N :=
  let points := gl_points k o in
  let* weights := gl_weights k o in
  let* _ := assert_ (length points =? length weights) in
  for_ 0 (length points) (fun i v =>
    let* w := vget weights i in let* p := vget points i in
    let* y := func i p in Ok (v + w * y)%num) start.
(** eval, Quadrature.inl:10-25 *)
Definition q_eval (k o : nat) (func : list N -> res N) (start : N) : res N :=
  let points := gl_points k o in
  let* weights := gl_weights k o in
  let* _ := assert_ (length points =? length weights) in
  for_ 0 (length points) (fun i v =>
    let* w := vget weights i in let* p := vget points i in
    let* y := func p in Ok (v + w * y)%num) start.
End QuadModel.
