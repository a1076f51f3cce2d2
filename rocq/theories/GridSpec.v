(** What the finite difference programs should compute: the five-point scheme for the Poisson problem and the implicit
    scheme for the heat equation, as equations between grid values.  Grid functions are indexed from 0 by column x and
    row y (and time step t); the grid point (x, y) has the coordinates (x*H, y*K). *)
From Coq Require Import List Arith Bool.
From Verif Require Import Base Num.
Local Open Scope nat_scope.

Section GridSpec.
Context {N : Num}.

(** The rim of an XC x YC grid. *)
Definition on_rim (XC YC x y : nat) : Prop := x = 0 \/ x = XC - 1 \/ y = 0 \/ y = YC - 1.

(** Second difference quotient with step h at the middle of l, c, r *)
Definition diff2 (h l c r : N) : N := ((l - (n1 + n1) * c + r) / (h * h))%num.
(** Discrete Laplacian at (x, y) *)
Definition laplace (H K : N) (u : nat -> nat -> N) (x y : nat) : N :=
  (diff2 H (u (x - 1)%nat y) (u x y) (u (x + 1)%nat y) + diff2 K (u x (y - 1)%nat) (u x y) (u x (y + 1)%nat))%num.

(** u solves the discrete Dirichlet problem  Laplace u = f inside,  u = b on the rim. *)
Definition poisson (XC YC : nat) (H K : N) (f b : N -> N -> N) (u : nat -> nat -> N) : Prop :=
  forall x y, x < XC -> y < YC ->
    (on_rim XC YC x y -> u x y = b (nofnat x * H)%num (nofnat y * K)%num) /\
    (~ on_rim XC YC x y -> laplace H K u x y = f (nofnat x * H)%num (nofnat y * K)%num).

(** u solves the implicit scheme for  du/dt = k Laplace u + f,  u = t0 at time 0,  u = b on the rim afterwards. *)
Definition heat (TC XC YC : nat) (HT HX HY : N) (k f b : N -> N -> N -> N) (t0 : N -> N -> N) (u : nat -> nat -> nat -> N) : Prop :=
  forall t x y, t < TC -> x < XC -> y < YC ->
    (t = 0 -> u t x y = t0 (nofnat x * HX)%num (nofnat y * HY)%num) /\
    (t <> 0 -> on_rim XC YC x y -> u t x y = b (nofnat t * HT)%num (nofnat x * HX)%num (nofnat y * HY)%num) /\
    (t <> 0 -> ~ on_rim XC YC x y ->
       ((u t x y - u (t - 1)%nat x y) / HT)%num =
       (k (nofnat t * HT) (nofnat x * HX) (nofnat y * HY) * laplace HX HY (u t) x y + f (nofnat t * HT) (nofnat x * HX) (nofnat y * HY))%num).

(** X (W - X) / 2 for X = x H and W = (XC-1) H: at most W^2/8 *)
Definition bubble (XC : nat) (H : N) (x : nat) : N :=
  ((nofnat x * H) * (nofnat (XC - 1) * H - nofnat x * H) / (n1 + n1))%num.
Fixpoint npow (x : N) (k : nat) : N := match k with O => n1 | S k => (x * npow x k)%num end.

(** The numbers of a data file as a grid function. *)
Definition table2 (lines : list (list N)) : nat -> nat -> N := fun x y => nth x (nth y lines nil) n0.
Definition table3 (blocks : list (list (list N))) : nat -> nat -> nat -> N := fun t => table2 (nth t blocks nil).
(** It has ny lines of nx numbers. *)
Definition has_size2 (nx ny : nat) (lines : list (list N)) : Prop :=
  length lines = ny /\ forall y, y < ny -> length (nth y lines nil) = nx.
Definition has_size3 (nt nx ny : nat) (blocks : list (list (list N))) : Prop :=
  length blocks = nt /\ forall t, t < nt -> has_size2 nx ny (nth t blocks nil).
End GridSpec.
