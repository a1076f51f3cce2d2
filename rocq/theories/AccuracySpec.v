(** The differential equations the example programs approximate, with the derivatives of Coq's standard library:
    [derivable_pt_lim g t d] says that (g (t + h) - g t) / h tends to d as h tends to 0. *)
From Coq Require Import Reals.
Local Open Scope R_scope.

(** g2 is the second derivative of g on [a, b], and the fourth derivative exists and is at most M in absolute value. *)
Definition smooth4 (a b M : R) (g g2 : R -> R) : Prop :=
  exists g1 g3 g4 : R -> R, forall t, a <= t <= b ->
    derivable_pt_lim g t (g1 t) /\ derivable_pt_lim g1 t (g2 t) /\ derivable_pt_lim g2 t (g3 t) /\ derivable_pt_lim g3 t (g4 t) /\
    Rabs (g4 t) <= M.
(** g1 is the derivative of g on [a, b], and the second derivative exists and is at most M in absolute value. *)
Definition smooth2 (a b M : R) (g g1 : R -> R) : Prop :=
  exists g2 : R -> R, forall t, a <= t <= b ->
    derivable_pt_lim g t (g1 t) /\ derivable_pt_lim g1 t (g2 t) /\ Rabs (g2 t) <= M.

(** u solves  u_xx + u_yy = f  inside the rectangle [0,W] x [0,L] and is b on its boundary; Mx and My bound the fourth
    derivatives of u in x and in y. *)
Definition poisson_pde (W L Mx My : R) (f b u : R -> R -> R) : Prop :=
  exists uxx uyy : R -> R -> R,
    (forall y, 0 <= y <= L -> smooth4 0 W Mx (fun x => u x y) (fun x => uxx x y)) /\
    (forall x, 0 <= x <= W -> smooth4 0 L My (fun y => u x y) (fun y => uyy x y)) /\
    (forall x y, 0 < x < W -> 0 < y < L -> uxx x y + uyy x y = f x y) /\
    (forall x y, 0 <= x <= W -> 0 <= y <= L -> x = 0 \/ x = W \/ y = 0 \/ y = L -> u x y = b x y).

(** u solves  u_t = k (u_xx + u_yy) + f  for times in (0,S] inside the rectangle, is t0 at time 0 and b on the boundary
    afterwards; Mt bounds its second derivative in time. *)
Definition heat_pde (S W L Mt Mx My : R) (k f b : R -> R -> R -> R) (t0 : R -> R -> R) (u : R -> R -> R -> R) : Prop :=
  exists ut uxx uyy : R -> R -> R -> R,
    (forall x y, 0 <= x <= W -> 0 <= y <= L -> smooth2 0 S Mt (fun t => u t x y) (fun t => ut t x y)) /\
    (forall t y, 0 <= t <= S -> 0 <= y <= L -> smooth4 0 W Mx (fun x => u t x y) (fun x => uxx t x y)) /\
    (forall t x, 0 <= t <= S -> 0 <= x <= W -> smooth4 0 L My (fun y => u t x y) (fun y => uyy t x y)) /\
    (forall t x y, 0 < t <= S -> 0 < x < W -> 0 < y < L -> ut t x y = k t x y * (uxx t x y + uyy t x y) + f t x y) /\
    (forall x y, 0 <= x <= W -> 0 <= y <= L -> u 0 x y = t0 x y) /\
    (forall t x y, 0 < t <= S -> 0 <= x <= W -> 0 <= y <= L -> x = 0 \/ x = W \/ y = 0 \/ y = L -> u t x y = b t x y).

(** F 1, ..., F n are the derivatives of F 0 on [a, b], and the n-th is at most M in absolute value. *)
Definition derivatives (a b M : R) (n : nat) (F : nat -> R -> R) : Prop :=
  (forall i t, (i < n)%nat -> a <= t <= b -> derivable_pt_lim (F i) t (F (S i) t)) /\ (forall t, a <= t <= b -> Rabs (F n t) <= M).

(** The second derivatives of f on [0,W] x [0,L] in x, in y and along the diagonal exist and are at most Fx, Fy and Fd in absolute
    value. *)
Definition bent (W L Fx Fy Fd : R) (f : R -> R -> R) : Prop :=
  (forall y, 0 <= y <= L -> exists f1, smooth2 0 W Fx (fun x => f x y) f1) /\
  (forall x, 0 <= x <= W -> exists f1, smooth2 0 L Fy (fun y => f x y) f1) /\
  (forall x y r, 0 <= r -> r <= x <= W - r -> r <= y <= L - r -> exists f1, smooth2 (- r) r Fd (fun s => f (x + s) (y + s)) f1).
