(** Model of the finite difference programs examples/poisson/fdm.cpp and examples/heat/main.cpp, with BOUNDARY_MODE 0
    (Dirichlet; the other modes are marked TODO in the sources).  The constants that the sources invite the reader to change
    (grid sizes, step widths, f, b, k, t0, the relaxation weight, the iteration limit and the tolerance) are parameters;
    the counts XC, YC, TC are parameters too (in the sources they are truncated double quotients plus 1: [grid_count] below).
    Index arithmetic is exact: the programs are only meaningful if D fits in size_t.  Console output is not modelled. *)
From Coq Require Import List Arith Bool ZArith SpecFloat.
From Verif Require Import Base Num NumInst VectorModel MatI MatOps SparseModel LUModel IterModel.
Import ListNotations.
Local Open Scope nat_scope.
Open Scope res_scope.

Section Poisson.
Context {N : Num}.
Implicit Types (A : SparseR N) (B : list N).

(** #define LIN, fdm.cpp:23 *)
Definition lin2 (XC x y : nat) : nat := y * XC + x.
(** The constants R2 and C, fdm.cpp:48-51 *)
Definition fdm_R2 (H K : N) : N := ((K * K) / (H * H))%num.
Definition fdm_C (H K : N) : N := (- (n1 + n1) * (n1 + fdm_R2 H K))%num.

(** First loop: bottom and top row of the grid, fdm.cpp:60-74 *)
Definition fdm_rows (XC YC : nat) (H K : N) (b : N -> N -> N) (s : SparseR N * list N) : res (SparseR N * list N) :=
  for_ 0 XC (fun x s => let '(A, B) := s in
    let* A := mi_set A (lin2 XC x 0) (lin2 XC x 0) n1 in
    let* A := mi_set A (lin2 XC x (YC - 1)) (lin2 XC x (YC - 1)) n1 in
    let* B := v_set B (lin2 XC x 0) (b (nofnat x * H)%num n0) in
    let* B := v_set B (lin2 XC x (YC - 1)) (b (nofnat x * H)%num (nofnat (YC - 1) * K)%num) in
    Ok (A, B)) s.
(** Second loop: left and right column, fdm.cpp:76-90 *)
Definition fdm_cols (XC YC : nat) (H K : N) (b : N -> N -> N) (s : SparseR N * list N) : res (SparseR N * list N) :=
  for_ 0 YC (fun y s => let '(A, B) := s in
    let* A := mi_set A (lin2 XC 0 y) (lin2 XC 0 y) n1 in
    let* A := mi_set A (lin2 XC (XC - 1) y) (lin2 XC (XC - 1) y) n1 in
    let* B := v_set B (lin2 XC 0 y) (b n0 (nofnat y * K)%num) in
    let* B := v_set B (lin2 XC (XC - 1) y) (b (nofnat (XC - 1) * H)%num (nofnat y * K)%num) in
    Ok (A, B)) s.
(** Third loop: the five-point stencil, fdm.cpp:97-108 (ST = 1) *)
Definition fdm_point (XC : nat) (H K : N) (f : N -> N -> N) (y x : nat) (s : SparseR N * list N) : res (SparseR N * list N) :=
  let '(A, B) := s in
  let* A := mi_set A (lin2 XC x y) (lin2 XC (x - 1) y) (fdm_R2 H K) in
  let* A := mi_set A (lin2 XC x y) (lin2 XC x y) (fdm_C H K) in
  let* A := mi_set A (lin2 XC x y) (lin2 XC (x + 1) y) (fdm_R2 H K) in
  let* A := mi_set A (lin2 XC x y) (lin2 XC x (y - 1)) n1 in
  let* A := mi_set A (lin2 XC x y) (lin2 XC x (y + 1)) n1 in
  let* B := v_set B (lin2 XC x y) ((K * K) * f (nofnat x * H) (nofnat y * K))%num in
  Ok (A, B).
Definition fdm_interior (XC YC : nat) (H K : N) (f : N -> N -> N) (s : SparseR N * list N) : res (SparseR N * list N) :=
  for_ 1 (YC - 1) (fun y => for_ 1 (XC - 1) (fdm_point XC H K f y)) s.

(** SparseMatrix A(D, D); B.resize(D); the three loops; fdm.cpp:43-108 *)
Definition fdm_assemble (XC YC : nat) (H K : N) (f b : N -> N -> N) : res (SparseR N * list N) :=
  let* A := @mi_new _ (SparseR N) (XC * YC) (XC * YC) in
  let* s := fdm_rows XC YC H K b (A, v_resize [] (XC * YC)) in
  let* s := fdm_cols XC YC H K b s in
  fdm_interior XC YC H K f s.

(** One line of the data file is the list of the numbers in it; fdm.cpp:151-158 *)
Definition fdm_data (XC YC : nat) (X : list N) : res (list (list N)) :=
  for_ 0 YC (fun y out =>
    let* line := for_ 0 XC (fun x l => let* v := v_at X (lin2 XC x y) in Ok (l ++ [v])) [] in
    Ok (out ++ [line])) [].

(** The program, fdm.cpp:24-162: what it prints as the iteration count and the lines of poisson_fdm.dat *)
Definition fdm_main (XC YC : nat) (H K : N) (f b : N -> N -> N) (relax : N) (maxIter : nat) (eps : N)
  : res (list (list N) * nat) :=
  let* AB := fdm_assemble XC YC H K f b in
  let* r := it_sor (M := SparseR N) (fst AB) (snd AB) (v_resize [] (XC * YC)) relax maxIter eps in
  let* lines := fdm_data XC YC (fst r) in
  Ok (lines, snd r).
End Poisson.

Section Heat.
Context {N : Num}.

(** #define LIN, heat/main.cpp:23 *)
Definition lin3 (XC YC t x y : nat) : nat := t * YC * XC + y * XC + x.
(** The constants IHX2, IHY2, IHT, C, heat/main.cpp:49-54 *)
Definition heat_ih2 (h : N) : N := (n1 / (h * h))%num.
Definition heat_C (HX HY : N) : N := ((n1 + n1) * (heat_ih2 HX + heat_ih2 HY))%num.

(** The body of the assembly loops, heat/main.cpp:79-112 *)
Definition heat_point (XC YC : nat) (HT HX HY : N) (k f b : N -> N -> N -> N) (t0 : N -> N -> N) (t y x : nat)
  (s : SparseR N * list N) : res (SparseR N * list N) :=
  let '(A, B) := s in
  let ft := (nofnat t * HT)%num in
  let fx := (nofnat x * HX)%num in
  let fy := (nofnat y * HY)%num in
  let mid := lin3 XC YC t x y in
  if (t =? 0) || (y =? 0) || (x =? 0) || (y =? YC - 1) || (x =? XC - 1) then
    let* A := mi_set A mid mid n1 in
    if negb (t =? 0) then let* B := v_set B mid (b ft fx fy) in Ok (A, B)
    else let* B := v_set B mid (t0 fx fy) in Ok (A, B)
  else
    let kf := k ft fx fy in
    let* A := mi_set A mid (lin3 XC YC (t - 1) x y) (- (n1 / HT))%num in
    let* A := mi_set A mid (lin3 XC YC t x (y - 1)) (- heat_ih2 HY * kf)%num in
    let* A := mi_set A mid (lin3 XC YC t (x - 1) y) (- heat_ih2 HX * kf)%num in
    let* A := mi_set A mid mid (heat_C HX HY * kf + n1 / HT)%num in
    let* A := mi_set A mid (lin3 XC YC t (x + 1) y) (- heat_ih2 HX * kf)%num in
    let* A := mi_set A mid (lin3 XC YC t x (y + 1)) (- heat_ih2 HY * kf)%num in
    let* B := v_set B mid (f ft fx fy) in
    Ok (A, B).
(** A(D, D, expected), B.resize(D) and the loops, heat/main.cpp:66-117.  The third constructor argument only reserves
    memory (SparseMatrix.inl) and is left out; its computation wraps around when XC or YC is 1. *)
Definition heat_assemble (TC XC YC : nat) (HT HX HY : N) (k f b : N -> N -> N -> N) (t0 : N -> N -> N)
  : res (SparseR N * list N) :=
  let* A := @mi_new _ (SparseR N) (TC * XC * YC) (TC * XC * YC) in
  for_ 0 TC (fun t => for_ 0 YC (fun y => for_ 0 XC (heat_point XC YC HT HX HY k f b t0 t y)))
    (A, v_resize [] (TC * XC * YC)).

(** heat_data.dat after the header: one block of lines per time, heat/main.cpp:166-177 *)
Definition heat_data (TC XC YC : nat) (X : list N) : res (list (list (list N))) :=
  for_ 0 TC (fun t out =>
    let* block := for_ 0 YC (fun y out =>
      let* line := for_ 0 XC (fun x l => let* v := v_at X (lin3 XC YC t x y) in Ok (l ++ [v])) [] in
      Ok (out ++ [line])) [] in
    Ok (out ++ [block])) [].

(** The program, heat/main.cpp:24-181 *)
Definition heat_main (TC XC YC : nat) (HT HX HY : N) (k f b : N -> N -> N -> N) (t0 : N -> N -> N)
  (relax : N) (maxIter : nat) (eps : N) : res (list (list (list N)) * nat) :=
  let* AB := heat_assemble TC XC YC HT HX HY k f b t0 in
  let* r := it_sor (M := SparseR N) (fst AB) (snd AB) (v_resize [] (TC * XC * YC)) relax maxIter eps in
  let* blocks := heat_data TC XC YC (fst r) in
  Ok (blocks, snd r).
End Heat.

(** Conversion of a double to size_t: the fraction is dropped; a value that does not fit is undefined behaviour (in the sources
    the conversion is part of a constant expression, so such a program would not compile). *)
Definition size_of_double (x : F64) : res nat :=
  match x with
  | S754_zero _ => Ok 0
  | S754_finite s m e =>
      let z := if (0 <=? e)%Z then (Zpos m * 2 ^ e)%Z else (Zpos m / 2 ^ (- e))%Z in
      if s then if (z =? 0)%Z then Ok 0 else UB else if (z <? 2 ^ 64)%Z then Ok (Z.to_nat z) else UB
  | _ => UB
  end.
(** constexpr Dimension XC = grid_width / H + 1 and the like, fdm.cpp:41-42 and heat/main.cpp:43-45 *)
Definition grid_count (width h : NumF64) : res nat := size_of_double (width / h + n1)%num.
