(** Property C71: handleMesh of the finite element example, examples/poisson/fem.cpp.  The vocabulary (element matrices, assembled
    system, [discrete], [outputs], [anchored]) is in FemSpec.v.  drop is the constant EPS, f the source, g the boundary function. *)
From Coq Require Import List Arith Bool ZArith QArith Lia.
From Verif Require Import Base BaseProofs Num NumInst NumEps OrdField UtilsModel UtilsSpec UtilsInst ExampleBase Spec VectorModel SparseModel SimplexModel SimplexSpec
  MeshModel MeshSpec MeshDofSpec MatI MatOps LUModel DetSpec CholProofs CGResult IterModel IterResult QuadModel PropMesh PropDof PropGrid
  FemModel FemSpec FemResult FemFacts FemHyper FemSolve.
Import ListNotations.
Local Open Scope nat_scope.
Open Scope res_scope.

(** ** C71 *)
(** The matrix and right-hand side of handleMesh, for every connected and prepared mesh with proper triangles: the sums of the
    element matrices and vectors over the nodes of order o, with the boundary values eliminated. *)
Theorem C71_system (N : Num) (HO : OrdFieldLaws N) (HN : NatLaws N) : forall drop o f g (ops : list (mop N)) s0 s,
  o = 1 \/ o = 2 -> valid 0 ops -> ready ops s0 -> m_prepare s0 = Ok s -> points ops <> [] ->
  (forall e, e < length (tris ops) -> proper (corner (points ops) (tris ops) e)) ->
  returns (fem_system drop o f g s) (fun r => exists V D bd, discrete o (points ops) (tris ops) s (fst r) V D bd /\
    let n := length V in let a := fem_a drop o V D in
    holds (fst (snd r)) n n (fixed_a bd (avg_diag n a) a) /\
    reads (snd (snd r)) n (fixed_b n bd (avg_diag n a) (fun i => g (nth i V [])) a (fem_b drop o f V D))).
Proof. exact (system_ok HO HN). Qed.
(** If no entry of an element matrix is dropped and every vertex is joined to a flagged one by elements, the matrix is symmetric and
    positive definite; the system has exactly one solution: g at the flagged nodes, and the rows of the others hold. *)
Theorem C71_unique (N : Num) (HO : OrdFieldLaws N) (HN : NatLaws N) : forall drop o f g (ops : list (mop N)) s0 s bd0,
  o = 1 \/ o = 2 -> valid 0 ops -> ready ops s0 -> m_prepare s0 = Ok s -> tris ops <> [] ->
  (forall e, e < length (tris ops) -> proper (corner (points ops) (tris ops) e)) ->
  (forall e k l, e < length (tris ops) -> k < 3 * o -> l < 3 * o ->
    kept drop (stiff o (corner (points ops) (tris ops) e) k l) = stiff o (corner (points ops) (tris ops) e) k l) ->
  (forall k, k < length (points ops) -> boundary_flag s k (bd0 k)) -> (forall k, k < length (points ops) -> anchored (tris ops) bd0 k) ->
  returns (fem_system drop o f g s) (fun r => exists V D bd a b, discrete o (points ops) (tris ops) s (fst r) V D bd /\
    let n := length V in holds (fst (snd r)) n n a /\ reads (snd (snd r)) n b /\ symmetric2 n a /\ pos_def n a /\
    (forall x, (forall i, i < n -> mulvec n a x i = b i) <->
      (forall i, i < n -> bd i = true -> x i = g (nth i V [])) /\
      (forall i, i < n -> bd i = false -> mulvec n (fem_a drop o V D) x i = fem_b drop o f V D i)) /\
    (exists x, forall i, i < n -> mulvec n a x i = b i) /\
    (forall x y, (forall i, i < n -> mulvec n a x i = b i) -> (forall i, i < n -> mulvec n a y i = b i) -> forall i, i < n -> x i = y i)).
Proof. exact (system_unique HO HN). Qed.
(** With EPS = 0 nothing is dropped. *)
Theorem C71_nothing_dropped (N : Num) (HO : OrdFieldLaws N) : forall x : N, kept n0 x = x.
Proof. exact (kept_0 HO). Qed.
(** HyperCube with square cells of width h, order 1 and a constant source F whose load is not dropped: the system is the five-point
    difference scheme with the boundary values g. *)
Theorem C71_five_point (N : Num) (HO : OrdFieldLaws N) (HN : NatLaws N) : forall e0 e1 (s0 s1 ox oy h drop : N), 1 <= e0 -> 1 <= e1 ->
  (s0 / nofnat e0)%num = h -> (s1 / nofnat e1)%num = h -> tiny h = false -> nleb n0 drop = true -> nltb drop (dec 333333333333333 15 / (n1 + n1) * (n1 + n1 + n1))%num = true ->
  forall F g sm s, hc_generate e0 e1 [s0; s1] [ox; oy] = Ok sm -> m_prepare sm = Ok s ->
  F = n0 \/ nltb drop (nabs (h * h * (dec 333333333333333 15 / (n1 + n1)) * F))%num = true ->
  returns (fem_system drop 1 (fun _ => F) g s) (fun r => let w := e1 + 1 in let n := (e0 + 1) * w in exists a b,
    holds (fst (snd r)) n n a /\ reads (snd (snd r)) n b /\ symmetric2 n a /\ pos_def n a /\
    forall x, (forall i, i < n -> mulvec n a x i = b i) <->
      forall i j, i <= e0 -> j <= e1 ->
        if (i =? 0) || (i =? e0) || (j =? 0) || (j =? e1) then x (i * w + j) = g [ox + h * nofnat j; oy + h * nofnat i]%num
        else ((n1 + n1 + n1 + n1) * x (i * w + j)%nat - x ((i - 1) * w + j)%nat - x ((i + 1) * w + j)%nat - x (i * w + (j - 1))%nat - x (i * w + (j + 1))%nat = h * h * F)%num).
Proof. intros e0 e1 s0 s1 ox oy h drop H0 H1 E0 E1 Ht Hd Hk. exact (hyper_system HO HN e0 e1 s0 s1 ox oy h drop H0 H1 E0 E1 Ht Hd Hk). Qed.

(** *** Solving *)
(** SOR returns after at most 1024 sweeps; CG returns with a residual below 1e-4 unless it used all 1024 steps. *)
Theorem C71_solvers (N : Num) (HO : OrdFieldLaws N) : forall (A : SparseR N) B n a, holds A n n a -> length B = n -> 0 < n ->
  (exists x it, fem_solve 0 A B = it_sor A B (v_new n) (dec 12 1) 1024 (dec 1 4) /\ fem_solve 0 A B = Ok (x, it) /\ length x = n /\ it <= 1024) /\
  exists x it, fem_solve 1 A B = Ok (x, it) /\ length x = n /\ 1 <= it <= 1024 /\ (it < 1024 -> nltb (residual2 n a B x) (dec 1 4 * dec 1 4)%num = true).
Proof. exact (solve_01 HO). Qed.
(** Preconditioned CG throws iff a diagonal entry is tiny; for a symmetric positive definite matrix of at most 1024 rows and a
    right-hand side that is not 0 it reaches the tolerance within n steps. *)
Theorem C71_pcg (N : Num) (HO : OrdFieldLaws N) : forall (A : SparseR N) B n a, holds A n n a -> length B = n -> 0 < n ->
  post (fem_solve 2 A B) (fun r => (forall i, i < n -> tiny (a i i) = false) /\ length (fst r) = n /\ 1 <= snd r <= 1024 /\
      (snd r < 1024 -> nltb (residual2 n a B (fst r)) (dec 1 4 * dec 1 4)%num = true) /\
      (symmetric2 n a -> pos_def n a -> (exists i, i < n /\ nth i B n0 <> n0) -> n <= 1024 ->
        snd r <= n /\ nltb (residual2 n a B (fst r)) (dec 1 4 * dec 1 4)%num = true))
    (fun e => e = Singular /\ exists i, i < n /\ tiny (a i i) = true).
Proof. exact (solve_2 HO). Qed.
(** handleMesh as a whole never aborts and has no undefined behaviour; the error arrays and files describe the node values x. *)
Theorem C71_handle (N : Num) (HO : OrdFieldLaws N) (HN : NatLaws N) (HS : SqrtLaws N) : forall drop o solver f g sol (ops : list (mop N)) s0 s,
  o = 1 \/ o = 2 -> solver <= 2 -> valid 0 ops -> ready ops s0 -> m_prepare s0 = Ok s -> points ops <> [] ->
  (forall e, e < length (tris ops) -> proper (corner (points ops) (tris ops) e)) ->
  post (fem_handle drop o solver f g sol s) (fun r => exists V D bd x, discrete o (points ops) (tris ops) s (fo_mesh r) V D bd /\
      fem_system drop o f g s = Ok (fo_mesh r, (fo_A r, fo_B r)) /\ fem_solve solver (fo_A r) (fo_B r) = Ok (fo_X r, fo_it r) /\
      reads (fo_X r) (length V) x /\ outputs o f sol (tris ops) V D x r)
    (fun e => solver = 2 /\ e = Singular).
Proof. exact (handle_ok HO HN HS). Qed.

(** *** The gradients *)
(** pullT turns local gradients into gradients: the hat functions combined with the values of an affine function give its slope. *)
Theorem C71_true_gradient (N : Num) (HO : OrdFieldLaws N) : forall (p : nat -> nat -> N) c0 c1 c2 c, area2 p <> n0 -> c < 2 ->
  bigsum 3 (fun k => (c0 + c1 * p k 0%nat + c2 * p k 1%nat) * pullT p (fun c => dbary k c) c)%num = match c with 0 => c1 | _ => c2 end.
Proof. exact (pullT_affine HO). Qed.
(** The element matrix agrees with the one of the true gradients iff the map from the standard triangle commutes with its transpose. *)
Theorem C71_normal (N : Num) (HO : OrdFieldLaws N) : forall p : nat -> nat -> N, area2 p <> n0 ->
  (normal_map p -> forall o k l, stiff o p k l = stiff_exact o p k l) /\
  ((forall k l, k < 3 -> l < 3 -> stiff 1 p k l = stiff_exact 1 p k l) -> normal_map p).
Proof. intros p Ha. split; [intros H o k l; now apply (normal_exact HO)|now apply (exact_normal HO)]. Qed.

(** ** Examples *)
Definition rd {N} (s : mst N) : res (mst N) := let* s := m_setupNeighbors s in let* s := m_setupBoundaries s in m_prepare s.
Definition coord (k : nat) (v : list NumQc) : NumQc := nth k v n0.
Definition qs (v : list NumQc) : list Q := map (fun a : NumQc => Qcanon.this a) v.
(** the value the system prescribes for node 0 when all other nodes are flagged *)
Definition centre (ops : list (mop NumQc)) (f g : list NumQc -> NumQc) : res Q :=
  let* s := build ops in let* s := rd s in let* r := fem_system n0 1 f g s in
  let* a := mi_at (fst (snd r)) 0 0 in let* b := v_at (snd (snd r)) 0 in Ok (Qcanon.this (b / a)%num).
Lemma proper_fan e : e < length (tris fan) -> proper (corner (points fan) (tris fan) e).
Proof. intros He. change (length (tris fan)) with 3 in He. destruct e as [|[|[|]]]; try lia; (split; [vm_compute; discriminate|vm_compute; reflexivity]). Qed.
Lemma chain {A B C D E} (b : res A) (f : A -> res B) (g : B -> res C) (h : C -> res D) (k : D -> E) r :
  (let* s := b in let* s := f s in let* s := g s in let* s := h s in Ok (k s)) = Ok r ->
  exists s0 s1 s2, (let* s := b in f s) = Ok s0 /\ g s0 = Ok s1 /\ h s1 = Ok s2 /\ k s2 = r.
Proof.
  destruct b as [a| | | | |]; cbn [bind]; try discriminate. destruct (f a) as [s0| | | | |] eqn:E0; cbn [bind]; try discriminate.
  destruct (g s0) as [s1| | | | |] eqn:E1; cbn [bind]; try discriminate. destruct (h s1) as [s2| | | | |] eqn:E2; cbn [bind]; try discriminate.
  intros X. exists s0, s1, s2. inversion X. auto.
Qed.
Definition flags4 (s : mst NumQc) : list (option bool) := map (fun k => match deref (hv s) k with Ok v => Some (mv_bound v) | _ => None end) (seq 0 4).
(** the hypotheses of C71_unique hold for the fan *)
Example C71_fan : exists s0 s, valid 0 fan /\ ready fan s0 /\ m_prepare s0 = Ok s /\ (forall e, e < length (tris fan) -> proper (corner (points fan) (tris fan) e)) /\
  exists bd0, (forall k, k < length (points fan) -> boundary_flag s k (bd0 k)) /\ (forall k, k < length (points fan) -> anchored (tris fan) bd0 k).
Proof.
  assert (X : (let* s := build fan in let* s := m_setupNeighbors s in let* s := m_setupBoundaries s in let* s := m_prepare s in Ok (flags4 s)) = Ok [Some false; Some true; Some true; Some true]) by (vm_compute; reflexivity).
  apply chain in X as (s0 & s1 & s & E1 & Eb & E2 & X).
  exists s1, s. split; [exact C50_fan_valid|]. split; [eapply rd_boundaries; [apply rd_setup; exact E1|exact Eb]|]. split; [exact E2|]. split; [exact proper_fan|].
  exists (fun k => negb (k =? 0)). change (length (points fan)) with 4. split.
  - clear - X. unfold flags4 in X. cbn [map seq] in X. unfold boundary_flag. intros k Hk.
    destruct k as [|[|[|[|]]]]; try lia; cbn [Nat.eqb negb];
      match goal with |- context [deref (hv s) ?k] => destruct (deref (hv s) k) as [v| | | | |]; try discriminate; exists v; split; [reflexivity|congruence] end.
  - intros k Hk. destruct (Nat.eq_dec k 0) as [->|Hne]; [|apply an_flag; now apply negb_true_iff, Nat.eqb_neq].
    apply (an_step _ _ 0 0 1); [apply Nat.ltb_lt; reflexivity|left; reflexivity|right; left; reflexivity|]. now apply an_flag.
Qed.
(** A square with 3x3 vertices: the five-point value at the centre, by PCG; order 2 runs as well. *)
Example C71_square : (let* s := hc_generate 2 2 [q 2 1; q 2 1] [n0; n0] in let* s := m_prepare s in
   let* r := fem_system (dec 1 8) 1 (fun _ => q 1 1) (coord 0) s in
   let* xi := fem_solve 2 (fst (snd r)) (snd (snd r)) in
   let* x := v_at (fst xi) 4 in Ok (Nat.leb (snd xi) 9, nltb (nabs (x - (q 5 4))) (dec 1 3))%num) = Ok (true, true).
Proof. vm_compute. reflexivity. Qed.
Example C71_files : (let* s := build fan in let* s := rd s in let* r := fem_system n0 2 (fun _ => n0) (coord 0) s in
   let* d := fem_data (fst r) (snd (snd r)) in let* m := fem_mesh (fst r) in
   Ok (length d, map (fun t => (Qcanon.this (fst (fst t)), Qcanon.this (snd (fst t)))) (skipn 8 d), m)) =
  Ok (10, [((-1) # 1, (-3) # 2); (1 # 1, (-3) # 2)]%Q, [(1, 2, 3); (1, 3, 4); (1, 4, 2)]).
Proof. vm_compute. reflexivity. Qed.
(** [BUG] The element matrices use J^-1 where the gradient needs its transpose.  On the fan around the origin the affine (harmonic)
    boundary values y, source 0, give 33/28 at the centre instead of 0; with the true gradients the values of y solve the system. *)
Theorem C71_gradients_refuted : centre fan (fun _ => n0) (coord 1) = Ok (33 # 28)%Q /\
  nth 0 (points fan) [] = pt 0 0 /\
  Qcanon.this (mulvec 4 (assembled (tris fan) 3 (fun e => stiff_exact 1 (corner (points fan) (tris fan) e))) (fun i => coord 1 (nth i (points fan) [])) 0 : NumQc) = 0%Q.
Proof. repeat split; vm_compute; reflexivity. Qed.
(** [BUG] Load entries up to EPS = 1e-8 are dropped although they scale with the element area: on a square of width 1/5000 with the
    source 1 the whole right-hand side is 0, so that 0 is the solution. *)
Theorem C71_small_loads_refuted : (let* s := hc_generate 2 2 [q 1 5000; q 1 5000] [n0; n0] in let* s := m_prepare s in
   let* r := fem_system (dec 1 8) 1 (fun _ => q 1 1) (fun _ => n0) s in Ok (qs (snd (snd r)))) = Ok (repeat 0%Q 9) /\
  (let* s := hc_generate 2 2 [q 1 5000; q 1 5000] [n0; n0] in let* s := m_prepare s in
   let* r := fem_system n0 1 (fun _ => q 1 1) (fun _ => n0) s in let* b := v_at (snd (snd r)) 4 in Ok (nltb n0 b)) = Ok true.
Proof. split; vm_compute; reflexivity. Qed.
(** A mesh without vertices aborts: SparseMatrix(0, 0). *)
Theorem C71_empty_refuted (N : Num) : forall drop (f g : list N -> N), (let* s := build (N := N) [] in let* s := rd s in fem_system drop 1 f g s) = Abort.
Proof. reflexivity. Qed.
(** In the estimate of order 2 only the nodes 4 and 5 of an element enter the cell term: the other four values are ignored. *)
Theorem C71_estimate_refuted (N : Num) : forall (f : list N -> N) p u v, u 4 = v 4 -> u 5 = v 5 -> cell_part f p u = cell_part f p v.
Proof. intros f p u v E4 E5. unfold cell_part. f_equal. apply SpecProofs.bigsum_ext. intros k _. unfold pull. cbn [Nat.add]. now rewrite E4, E5. Qed.
