(** Model of src/lib/CG.inl and src/lib/Iterative.inl, for a real number type (T = double in the code: the
    tolerances are doubles).  The functions return the vector and the value stored in *it_stat. *)
From Coq Require Import List Arith Bool.
From Verif Require Import Base Num Spec VectorModel MatI MatOps LUModel.
Import ListNotations.
Open Scope res_scope.

Section CG.
Context {N : Num} {M : MatOps N}.
Implicit Types (a c : M) (b x r p z t : list N).

(** The loop of cg, CG.inl:30-48.  [fuel] = maxIter - k: when it is used up, k < maxIter is false. *)
Fixpoint cg_loop (fuel k maxIter : nat) (eps2 : N) a x r p (rs : N) : res (list N * nat) :=
  match fuel with
  | O => Ok (x, k)
  | S f =>
      let* t := mo_mulv a p in
      let* tp := v_dot t p in
      let ak := (rs / tp)%num in
      let* dx := v_scale p ak in
      let* x := v_add_eq x dx in
      let* at_ := v_scale t ak in
      let* l := v_sub r at_ in
      let* ls := v_magSqr l in
      if nltb ls eps2 || (k =? maxIter - 1) then Ok (x, k)
      else
        let bk := (ls / rs)%num in
        let* br := v_scale r bk in
        let* p := v_add l br in
        cg_loop f (S k) maxIter eps2 a x l p ls
  end.
(** cg, CG.inl:8-54 (NS_ALLOW_CHECKS off) *)
Definition cg a b x0 (maxIter : nat) (eps : N) : res (list N * nat) :=
  if negb (mi_rows a =? mi_cols a) then Throw NotSquare
  else
    let eps2 := (eps * eps)%num in
    let* ax := mo_mulv a x0 in
    let* r := v_sub b ax in
    let* rs := v_magSqr r in
    let* xk := cg_loop maxIter 0 maxIter eps2 a x0 r r rs in
    Ok (fst xk, snd xk + 1).

(** The loop of pcg, CG.inl:81-98 *)
Fixpoint pcg_loop (fuel k maxIter : nat) (eps2 : N) a c x r p (l1 : N) : res (list N * nat) :=
  match fuel with
  | O => Ok (x, k)
  | S f =>
      let* t := mo_mulv a p in
      let* tp := v_dot t p in
      let ak := (l1 / tp)%num in
      let* dx := v_scale p ak in
      let* x := v_add_eq x dx in
      let* at_ := v_scale t ak in
      let* r := v_sub_eq r at_ in
      let* rr := v_magSqr r in
      if nltb rr eps2 || (k =? maxIter - 1) then Ok (x, k)
      else
        let* z := mo_mulv c r in
        let* l2 := v_dot r z in
        let* bp := v_scale p (l2 / l1)%num in
        let* p := v_add z bp in
        pcg_loop f (S k) maxIter eps2 a c x r p l2
  end.
(** pcg, CG.inl:56-104 *)
Definition pcg a b c x0 (maxIter : nat) (eps : N) : res (list N * nat) :=
  if negb (mi_rows a =? mi_cols a) then Throw NotSquare
  else if negb (mi_rows c =? mi_cols c) then Throw NotSquare
  else if negb (mi_rows a =? mi_rows c) then Throw MatrixSizeMismatch
  else
    let eps2 := (eps * eps)%num in
    let* ax := mo_mulv a x0 in
    let* r := v_sub b ax in
    let* z := mo_mulv c r in
    let* l1 := v_dot r z in
    let* xk := pcg_loop maxIter 0 maxIter eps2 a c x0 r z l1 in
    Ok (fst xk, snd xk + 1).

(** CG::jacobi (diagonal preconditioner), CG.inl:106-127 *)
Definition cg_jacobi a c : res M :=
  if negb (mi_rows a =? mi_cols a) then Throw NotSquare
  else if negb (mi_rows c =? mi_cols c) then Throw NotSquare
  else if negb (mi_rows a =? mi_rows c) then Throw MatrixSizeMismatch
  else
    for_ 0 (mi_rows a) (fun i c =>
      let* mid := mi_at a i i in
      if tiny mid then Throw Singular else mi_set c i i (n1 / mid)%num) c.
End CG.

Section Stationary.
Context {N : Num} {M : RowMat N}.
Implicit Types (a : M) (b x xm : list N).

(** Row loop of Iterative::jacobi, Iterative.inl:33-42: the pair (mid, t) *)
Definition jac_row (i : nat) x (row : list (nat * N)) : res (N * N) :=
  foreach row (fun e st =>
    if negb (fst e =? i) then let* xv := v_at x (fst e) in Ok (fst st, snd st + snd e * xv)%num
    else Ok (snd e, snd st)) (n0, n0).
(** One sweep, Iterative.inl:29-45 *)
Definition jac_sweep a b x xm : res (list N) :=
  for_ 0 (mi_rows a) (fun i xm =>
    let* row := rm_row a i in
    let* mt := jac_row i x row in
    let* bi := v_at b i in
    v_set xm i ((bi - snd mt) / fst mt)%num) xm.
(** The test after a sweep, Iterative.inl:47-62 and 108-123: Some true = return xm, Some false = go on *)
Definition conv_test (eps2 : N) x xm : res bool :=
  let* d := v_sub xm x in
  let* m := v_magSqr d in
  let conv := nabs m in
  if nisnan conv then Throw MatrixHasZeroInDiag
  else Ok (nisinf conv || nleb conv eps2).
Fixpoint sweeps (sweep : list N -> list N -> res (list N)) (fuel it maxIter : nat) (eps2 : N) x xm : res (list N * nat) :=
  match fuel with
  | O => Ok (x, maxIter)
  | S f =>
      let* xm := sweep x xm in
      let* stop := conv_test eps2 x xm in
      if stop then Ok (xm, it + 1)
      else sweeps sweep f (S it) maxIter eps2 xm xm
  end.
(** Iterative::jacobi, Iterative.inl:11-67 *)
Definition it_jacobi a b x0 (maxIter : nat) (eps : N) : res (list N * nat) :=
  if negb (mi_rows a =? mi_cols a) then Throw NotSquare
  else if negb (mi_rows a =? v_size b) || negb (mi_rows a =? v_size x0) then Throw MatrixVectorMismatch
  else
    let* xm := v_fill x0 n0 in
    sweeps (jac_sweep a b) maxIter 0 maxIter (eps * eps)%num x0 xm.

(** Row loop of Iterative::sor, Iterative.inl:93-102 *)
Definition sor_row (i : nat) x xm (row : list (nat * N)) : res (N * N) :=
  foreach row (fun e st =>
    if fst e <? i then let* xv := v_at xm (fst e) in Ok (fst st, snd st + snd e * xv)%num
    else if i <? fst e then let* xv := v_at x (fst e) in Ok (fst st, snd st + snd e * xv)%num
    else Ok (snd e, snd st)) (n0, n0).
Definition sor_sweep a b (weight : N) x xm : res (list N) :=
  for_ 0 (mi_rows a) (fun i xm =>
    let* row := rm_row a i in
    let* mt := sor_row i x xm row in
    let* bi := v_at b i in
    let t := ((bi - snd mt) / fst mt)%num in
    let* xi := v_at xm i in
    v_set xm i ((n1 - weight) * xi + weight * t)%num) xm.
(** Iterative::sor, Iterative.inl:69-129 *)
Definition it_sor a b x0 (weight : N) (maxIter : nat) (eps : N) : res (list N * nat) :=
  if negb (mi_rows a =? mi_cols a) then Throw NotSquare
  else if negb (mi_rows a =? v_size b) || negb (mi_rows a =? v_size x0) then Throw MatrixVectorMismatch
  else
    let* xm := v_fill x0 n0 in
    sweeps (sor_sweep a b weight) maxIter 0 maxIter (eps * eps)%num x0 xm.
End Stationary.
