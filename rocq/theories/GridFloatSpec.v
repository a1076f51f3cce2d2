(** Vocabulary of the properties of the finite difference programs in double arithmetic. *)
From Coq Require Import ZArith Reals Arith List.
From Verif Require Import Num NumInst FloatSpec FloatIterSpec GridModel.
Local Open Scope R_scope.

(** v is a finite double within phi of the number F, and F is at most Fm in absolute value: how accurately the program evaluates a
    given function (rounding of the coordinates and of the function itself). *)
Definition evaluates (v : NumF64) (F phi Fm : R) : Prop := double v /\ finite v /\ Rabs (real v - F) <= phi /\ Rabs F <= Fm.
(** Error of k^2 F, computed as (k * k) * F for a value F of size at most Fm with error phi. *)
Definition rhs_bound (k Fm phi : R) : R :=
  ((1 + u64) ^ 2 - 1) * k ^ 2 * Fm + (1 + u64) ^ 2 * k ^ 2 * phi + (1 + u64) * eta64 * (Fm + phi) + eta64.

(** The grid functions p and q are finite and close enough for the squares of their differences not to overflow; q is at most Y. *)
Definition grid_tame (XC YC : nat) (p q : nat -> nat -> NumF64) (Y : R) : Prop :=
  forall x y, (x < XC)%nat -> (y < YC)%nat ->
    finite (p x y) /\ finite (q x y) /\ Rabs (real (q x y) - real (p x y)) <= powerRZ 2 400 /\ Rabs (real (q x y)) <= Y.

(** Defect of the rim values: the last update d, weight w, values at most Y, boundary values at most Gm with error psi. *)
Definition fdm_rim (d w Y Gm psi : R) : R := (d * Rabs (1 - w) + relax_bound 5 w 1 (Y + d) (Gm + psi)) / Rabs w + psi.
(** Defect of the (scaled) equation at an interior point: as before, with the source at most Fm with error phi; r2 and c are the
    coefficients of the program, which stand for k^2/h^2 and -2 (1 + k^2/h^2). *)
Definition fdm_inner (d w Y h k r2 c Fm phi : R) : R :=
  (d * (Rabs (1 - w) * Rabs c + Rabs w * (Rabs r2 + 1))
     + relax_bound 9 w c (Y + d) (k ^ 2 * Fm + rhs_bound k Fm phi + (2 * Rabs r2 + 2) * (Y + d))) / Rabs w
  + rhs_bound k Fm phi + (2 * Rabs (r2 - k ^ 2 / h ^ 2) + Rabs (c + 2 * (1 + k ^ 2 / h ^ 2))) * Y.

(** ** The heat program *)
(** As grid_tame, for tables with a time index. *)
Definition grid_tame3 (TC XC YC : nat) (p q : nat -> nat -> nat -> NumF64) (Y : R) : Prop :=
  forall t x y, (t < TC)%nat -> (x < XC)%nat -> (y < YC)%nat ->
    finite (p t x y) /\ finite (q t x y) /\ Rabs (real (q t x y) - real (p t x y)) <= powerRZ 2 400 /\ Rabs (real (q t x y)) <= Y.
(** The conductivity is at most km and evaluated with error kap; a coefficient r, which stands for e, is multiplied by it: the
    error of the product and its largest absolute value. *)
Definition prod_error (r e km kap : R) : R := u64 * (Rabs r * (km + kap)) + eta64 + Rabs r * kap + Rabs (r - e) * km.
Definition prod_max (r km kap : R) : R := (1 + u64) * (Rabs r * (km + kap)) + eta64.
(** The computed coefficients 1/ht, 1/hx^2, 1/hy^2 and 2 (1/hx^2 + 1/hy^2) are rt, rx, ry and rc: the sum of the errors of the
    six coefficients of an equation, and the largest value of the diagonal one. *)
Definition heat_coef_error (ht hx hy rt rx ry rc km kap : R) : R :=
  2 * prod_error rx (1 / hx ^ 2) km kap + 2 * prod_error ry (1 / hy ^ 2) km kap + 2 * Rabs (rt - 1 / ht)
  + prod_error rc (2 * (1 / hx ^ 2 + 1 / hy ^ 2)) km kap + u64 * (prod_max rc km kap + Rabs rt).
Definition heat_diag (rt rc km kap : R) : R := (1 + u64) * (prod_max rc km kap + Rabs rt).
(** Defect of the equation at an interior point: the last update d, weight w, values at most Y, source at most Fm with error phi. *)
Definition heat_inner (d w Y ht hx hy rt rx ry rc km kap Fm phi : R) : R :=
  let ax := prod_max rx km kap in let ay := prod_max ry km kap in let ac := heat_diag rt rc km kap in
  (d * (Rabs (1 - w) * ac + Rabs w * (ax + ay))
     + relax_bound 10 w ac (Y + d) (Fm + phi + (Rabs rt + 2 * ax + 2 * ay) * (Y + d))) / Rabs w
  + phi + heat_coef_error ht hx hy rt rx ry rc km kap * Y.
