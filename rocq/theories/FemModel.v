(** Model of handleMesh of the finite element example, examples/poisson/fem.cpp:75-389, in exact (or any) arithmetic N.
    Parameters, compile-time constants in the example: the source function f (:67-69), the boundary function g (:71-73) and
    EPS (:61, called drop here).  Not modelled: console output, timing, the VERBOSE_LOG branches (off), AVG_MID_STRONG_BOUNDARY undefined
    (it is defined, :44), ShiftFactor (0, so :223-227 does nothing).  Files are the sequences of records written to them;
    the .vtu file is the exporter's (VtkModel.v). *)
From Coq Require Import List Arith Bool ZArith.
From Verif Require Import Base Num VectorModel SparseModel DenseModel MatI MatOps LUModel IterModel SimplexModel MeshModel ShapeModel QuadModel.
Import ListNotations.
Local Open Scope nat_scope.
Open Scope res_scope.

Section FemModel.
Context {N : Num}.
Notation vec := (list N).

(** std::abs(val) > EPS, fem.cpp:133 and :149 *)
Definition fem_keeps (drop x : N) : bool := nltb drop (nabs x).
(** the quadrature of the product of the gradients i and j, fem.cpp:126-131 (eval's start value is 0) *)
Definition fem_stiff (o : nat) (inv : dmat N) (i j : nat) : res N :=
  q_eval 2 (o + 1) (fun local =>
    let* gi := sf_gradient 2 o i local in let* a := d_mulv inv gi in
    let* gj := sf_gradient 2 o j local in let* b := d_mulv inv gj in
    v_dot a b) n0.
(** the quadrature of shape function i times the source, fem.cpp:137-144 *)
Definition fem_load (o : nat) (f : vec -> N) (sx : simplex N) (i : nat) : res N :=
  q_eval 2 (o + 1) (fun local =>
    let* v := sf_value 2 o i local in let* x := sx_toGlobal sx local in Ok (v * f x)%num) n0.
(** the element matrix and vector, fem.cpp:111-151 *)
Definition fem_element (drop : N) (o : nat) (f : vec -> N) (sx : simplex N) : res (dmat N * vec) :=
  let* d := sx_determinant sx in
  let det := nabs d in
  let* inv := sx_inverseMatrix sx in
  for_ 0 (sf_dof 2 o) (fun i st =>
    let '(em, ev) := st in
    let* em := for_ 0 (sf_dof 2 o) (fun j em =>
      let* q := fem_stiff o inv i j in
      let val := (det * q)%num in
      if fem_keeps drop val then d_set em i j val else Ok em) em in
    let* q := fem_load o f sx i in
    let fv := (det * q)%num in
    let* ev := (if fem_keeps drop fv then v_set ev i fv else Ok ev) in
    Ok (em, ev)) (d_fixed_new (sf_dof 2 o) (sf_dof 2 o), v_new (sf_dof 2 o)).
(** element->DOFVertices[i]->GlobalIndex, fem.cpp:159, 163 and 285 *)
Definition fem_dof (s : mst N) (x : melem N) (i : nat) : res nat :=
  let* p := vget (me_dof x) i in let* p := nn p in let* v := deref (hv s) p in Ok (mv_gi v).
(** adding the element matrix and vector, fem.cpp:157-168 *)
Definition fem_scatter (s : mst N) (o : nat) (x : melem N) (em : dmat N) (ev : vec) (st : SparseR N * vec) : res (SparseR N * vec) :=
  for_ 0 (sf_dof 2 o) (fun i st =>
    let* gi := fem_dof s x i in
    let '(A, B) := st in
    let* A := for_ 0 (sf_dof 2 o) (fun j A =>
      let* gj := fem_dof s x j in
      let* a := mi_at A gi gj in
      let* b := d_at em i j in
      mi_set A gi gj (a + b)%num) A in
    let* a := v_at B gi in
    let* b := v_at ev i in
    let* B := v_set B gi (a + b)%num in
    Ok (A, B)) st.
(** A and B, fem.cpp:93-169 *)
Definition fem_assemble (drop : N) (o : nat) (f : vec -> N) (s : mst N) : res (SparseR N * vec) :=
  let n := length (mV s) in
  let* A := mi_new n n in
  foreach (mE s) (fun e st =>
    let* x := deref (he s) e in
    let* em := fem_element drop o f (me_sx x) in
    fem_scatter s o x (fst em) (snd em) st) (A, v_new n).
(** avgMid, fem.cpp:173-176 *)
Definition fem_mid (s : mst N) (A : SparseR N) : res N :=
  let* m := foreach (mV s) (fun p m =>
    let* v := deref (hv s) p in let* a := mi_at A (mv_gi v) (mv_gi v) in Ok (m + nabs a)%num) n0 in
  Ok (m / nofnat (length (mV s)))%num.
(** the boundary constraints, fem.cpp:182-199 *)
Definition fem_boundary (g : vec -> N) (s : mst N) (mid : N) (st : SparseR N * vec) : res (SparseR N * vec) :=
  foreach (mV s) (fun p st =>
    let* v := deref (hv s) p in
    if negb (mv_bound v) then Ok st
    else
      let q := mv_gi v in
      let gv := g (mv_pos v) in
      let* st := for_ 0 (length (mV s)) (fun i st =>
        let '(A, B) := st in
        let* b := v_at B i in
        let* a := mi_at A i q in
        let* B := v_set B i (b - a * gv)%num in
        let* A := mi_set A q i n0 in
        let* A := mi_set A i q n0 in
        Ok (A, B)) st in
      let '(A, B) := st in
      let* A := mi_set A q q mid in
      let* B := v_set B q (mid * gv)%num in
      Ok (A, B)) st.
(** the linear system after prepareMesh, fem.cpp:81-199 *)
Definition fem_system (drop : N) (o : nat) (f g : vec -> N) (s : mst N) : res (mst N * (SparseR N * vec)) :=
  let* s := m_prepareMesh o s in
  let* st := fem_assemble drop o f s in
  let* mid := fem_mid s (fst st) in
  let* st := fem_boundary g s mid st in
  Ok (s, st).
(** preconditioner and solver, fem.cpp:214-246 *)
Definition fem_solve (solver : nat) (A : SparseR N) (B : vec) : res (vec * nat) :=
  let* C := mi_new (mi_rows A) (mi_cols A) in
  let* C := (if solver =? 2 then cg_jacobi A C else Ok C) in
  let* _ := cond A in
  let X := v_new (length B) in
  match solver with
  | 0 => it_sor A B X (dec 12 1) 1024 (dec 1 4)
  | 1 => cg A B X 1024 (dec 1 4)
  | _ => pcg A B C X 1024 (dec 1 4)
  end.
(** ExactError for the known solution sol, fem.cpp:257-270 *)
Definition fem_exact (sol : vec -> N) (s : mst N) (X : vec) : res vec :=
  foreach (mV s) (fun p E =>
    let* v := deref (hv s) p in
    let* uh := v_at X (mv_gi v) in
    v_set E (mv_gi v) (nabs (sol (mv_pos v) - uh))%num) (v_new (length (mV s))).
(** p->GlobalIndex and p->Vertex for a pointer from an array, fem.cpp:299-303 *)
Definition fem_vertex (s : mst N) (l : list (option nat)) (i : nat) : res (mvert N) :=
  let* p := vget l i in let* p := nn p in deref (hv s) p.
(** PostError of one element, fem.cpp:276-311.  For order 2 the shape function index passed to gradient2 is the number of the
    quadrature point (:288-290). *)
Definition fem_face (s : mst N) (x : melem N) (X : vec) (i : nat) (fe : N) : res N :=
  let* d := vget (me_n x) i in let* d := nn d in let* ed := deref (hd s) d in
  let* w := fem_vertex s (me_v x) i in
  let* xw := v_at X (mv_gi w) in
  let slope k := (let* y := fem_vertex s (ed_v ed) k in
                  let* xy := v_at X (mv_gi y) in
                  let* df := v_sub (mv_pos y) (mv_pos w) in
                  let* m := v_mag df in Ok ((xy - xw) / m)%num) in
  let u1 := v_new 2 in
  let* a := slope 0 in let* u1 := v_set u1 0 a in
  let* b := slope 1 in let* u1 := v_set u1 1 b in
  let* y0 := fem_vertex s (ed_v ed) 0 in let* y1 := fem_vertex s (ed_v ed) 1 in
  let* df := v_sub (mv_pos y0) (mv_pos y1) in
  let* m := v_mag df in
  let* q := v_magSqr u1 in
  Ok (fe + m * q)%num.
Definition fem_post_element (o : nat) (f : vec -> N) (s : mst N) (x : melem N) (X : vec) : res N :=
  let* inv := sx_inverseMatrix (me_sx x) in
  let* d := sx_determinant (me_sx x) in
  let det := nabs d in
  let* H := sx_diameter (me_sx x) in
  let* ce := (if o =? 2
    then let* nv := for_ 0 (sf_dof 2 o) (fun i nv => let* g := fem_dof s x i in let* u := v_at X g in v_set nv i u) (v_new (sf_dof 2 o)) in
         let* q := q_eval_index 2 (o + 1) (fun i local =>
           let* g2 := sf_gradient2_nv 2 o i local nv in
           let* t := d_mulv inv g2 in let* t := v_sum t in
           let* gl := sx_toGlobal (me_sx x) local in Ok (t + f gl)%num) n0 in
         Ok (det * q)%num
    else Ok n0) in
  let* fe := for_ 0 3 (fun i fe => fem_face s x X i fe) n0 in
  Ok (H * H * ce + dec 5 1 * fe)%num.
Definition fem_post (o : nat) (f : vec -> N) (s : mst N) (X : vec) : res vec :=
  let* st := foreach (mE s) (fun e st =>
    let '(k, P) := st in
    let* x := deref (he s) e in
    let* nk := fem_post_element o f s x X in
    let* P := v_set P k nk in Ok (S k, P)) (0, v_new (length (mE s))) in
  Ok (snd st).
(** poisson_fem_data.dat: x, y, value per vertex, fem.cpp:322-329 *)
Definition fem_data (s : mst N) (X : vec) : res (list (N * N * N)) :=
  foreach (mV s) (fun p l =>
    let* v := deref (hv s) p in
    let* x := v_at (mv_pos v) 0 in let* y := v_at (mv_pos v) 1 in let* u := v_at X (mv_gi v) in Ok (l ++ [(x, y, u)])) [].
(** poisson_fem_mesh.dat: the vertex numbers of every element plus one, fem.cpp:333-340 *)
Definition fem_mesh (s : mst N) : res (list (nat * nat * nat)) :=
  foreach (mE s) (fun e l =>
    let* x := deref (he s) e in
    let* a := fem_vertex s (me_v x) 0 in let* b := fem_vertex s (me_v x) 1 in let* c := fem_vertex s (me_v x) 2 in
    Ok (l ++ [(mv_gi a + 1, mv_gi b + 1, mv_gi c + 1)])) [].
(** handleMesh, fem.cpp:75-389: the mesh afterwards, the system, the solution with the number of iterations, the error arrays
    (ExactError stays zero unless M = 0, i.e. unless sol is given) and the two mesh files *)
Record fem_out : Type := mkFO {
  fo_mesh : mst N; fo_A : SparseR N; fo_B : vec; fo_X : vec; fo_it : nat; fo_exact : vec; fo_post : vec;
  fo_data : list (N * N * N); fo_elems : list (nat * nat * nat) }.
Definition fem_handle (drop : N) (o solver : nat) (f g : vec -> N) (sol : option (vec -> N)) (s : mst N) : res fem_out :=
  let* st := fem_system drop o f g s in
  let '(s, (A, B)) := st in
  let* xi := fem_solve solver A B in
  let X := fst xi in
  let* ee := match sol with Some sol => fem_exact sol s X | None => Ok (v_new (length (mV s))) end in
  let* pe := fem_post o f s X in
  let* data := fem_data s X in
  let* elems := fem_mesh s in
  Ok (mkFO s A B X (snd xi) ee pe data elems).
End FemModel.
Arguments fem_out : clear implicits.
