(** Properties C54 and C55: polynomial shape functions.  [nodes k o] are the DOF nodes of the standard simplex in the order
    drawn in PolyShapeFunction.inl, [usable]/[nodal] the (dimension, order) pairs concerned (ShapeSpec.v). *)
From Coq Require Import List Arith Bool ZArith QArith Reals Lia.
From Verif Require Import Base BaseProofs Num NumInst OrdField UtilsSpec UtilsInst ExampleBase VectorModel ShapeModel ShapeSpec ShapeProofs ShapeDeriv ShapeTables.
Import ListNotations.
Local Open Scope nat_scope.
Open Scope res_scope.

(** ** C54 *)
(** value(i, .) is 1 at node i and 0 at the other nodes. *)
Theorem C54_nodal (N : Num) (HO : OrdFieldLaws N) (HN : NatLaws N) : forall k o i j, In (k, o) nodal -> i < sf_dof k o -> j < sf_dof k o ->
  sf_value k o i (nth j (nodes k o) []) = Ok (if i =? j then n1 else n0 : N).
Proof. exact (nodal_ok HO HN). Qed.
(** The values of all functions at any point sum to 1. *)
Theorem C54_partition (N : Num) (HO : OrdFieldLaws N) (HN : NatLaws N) : forall k o x, In (k, o) usable -> length x = k ->
  returns (foreach (seq 0 (length (@nodes N k o))) (fun i l => let* a := sf_value k o i x in Ok (l ++ [a])) []) (fun l => total l = n1 :> N).
Proof. exact (partition HO HN). Qed.
(** Interpolating any polynomial of degree at most o at the nodes gives the polynomial back, everywhere. *)
Theorem C54_interpolates (N : Num) (HO : OrdFieldLaws N) (HN : NatLaws N) : forall k o x c, In (k, o) nodal -> length x = k -> length c = length (exponents k o) ->
  returns (foreach (seq 0 (sf_dof k o)) (fun i l => let* a := sf_value k o i x in Ok (l ++ [poly k o c (nth i (nodes k o) []) * a]))%num [])
    (fun l => total l = poly k o c x :> N).
Proof. exact (interpolates HO HN). Qed.
(** A component that does not exist aborts. *)
Theorem C54_range (N : Num) : forall k o i (v nv : list N), In (k, o) usable -> length (@nodes N k o) <= i ->
  sf_value_nv k o i v nv = Abort /\ sf_gradient_nv k o i v nv = Abort /\ sf_gradient2_nv k o i v nv = Abort.
Proof.
  intros k o i v nv H Hi. apply abort_range; unfold usable in H; cbn [In] in *; [tauto|].
  repeat (destruct H as [H|H]; [injection H as <- <-; exact Hi|]). destruct H.
Qed.
(** [BUG] Line elements of order 2: prepareMesh and the drawing put the midpoint last (x0 --x2-- x1), but function 1 is the
    midpoint's and function 2 that of x1; and the class announces 4 degrees of freedom, of which the fourth aborts. *)
Theorem C54_line_refuted (N : Num) (HO : OrdFieldLaws N) (HN : NatLaws N) :
  sf_value 1 2 1 (nth 1 (@nodes N 1 2) []) = Ok n0 /\ sf_value 1 2 1 (nth 2 (@nodes N 1 2) []) = Ok n1 /\ sf_value 1 2 2 (nth 1 (@nodes N 1 2) []) = Ok n1 /\
  sf_dof 1 2 = 4 /\ forall x : list N, sf_value 1 2 3 x = Abort.
Proof. exact (line_wrong HO HN). Qed.
(** [BUG] Order 3 on triangles and order 2 on tetrahedra need 10 node values but DOF is 9 and 8: every call aborts. *)
Theorem C54_cubic_refuted (N : Num) : forall i (x : list N), length x = 2 -> sf_value 2 3 i x = Abort /\ sf_gradient 2 3 i x = Abort /\ sf_gradient2 2 3 i x = Abort.
Proof. exact cubic_aborts. Qed.
Theorem C54_tetra_refuted (N : Num) : forall i (x : list N), length x = 3 -> sf_value 3 2 i x = Abort /\ sf_gradient 3 2 i x = Abort /\ sf_gradient2 3 2 i x = Abort.
Proof. exact tetra_aborts. Qed.
(** Only DOF is wrong there: with ten node values 1 the functions would be 1 at their own node and 0 at the nine others. *)
Theorem C54_tables : forall k i j, k = 2 \/ k = 3 -> i < 10 -> j < 10 ->
  sf_value_nv (N := NumR) k (order10 k) i (nth j (nodes10 k) []) (repeat 1%R 10) = Ok (if i =? j then 1 else 0)%R.
Proof. exact tables_nodal. Qed.
Example C54_nodal_example : (let* a := sf_value (N := NumQc) 2 2 4 [Qcanon.Q2Qc (1 # 2); Qcanon.Q2Qc (1 # 2)] in let* b := sf_value (N := NumQc) 2 2 4 [Qcanon.Q2Qc (1 # 4); Qcanon.Q2Qc (1 # 3)] in
   Ok (Qcanon.this a, Qcanon.this b)) = Ok (1, 1 # 3)%Q.
Proof. vm_compute. reflexivity. Qed.
Example C54_poly_example : length (exponents 2 2) = 6 /\ length (exponents 3 1) = 4 /\ exponents 2 1 = [[0; 0]; [0; 1]; [1; 0]].
Proof. repeat split. Qed.

(** ** C55 *)
(** gradient(i, x) is the vector of partial derivatives of value(i, .) at x, gradient2(i, x) the vector of second
    derivatives in each direction. *)
Theorem C55_derivatives : forall k o i, In (k, o) usable -> i < length (@nodes NumR k o) ->
  exists (f : list R -> R) (G D : list R -> list R),
    (forall y, length y = k -> sf_value (N := NumR) k o i y = Ok (f y) /\ sf_gradient (N := NumR) k o i y = Ok (G y) /\ sf_gradient2 (N := NumR) k o i y = Ok (D y)) /\
    forall x, length x = k -> partials f x (G x) /\ second_partials G x (D x).
Proof. exact derivs_plain. Qed.
(** The same with node values, except for triangles of order 1 unless the first node value is 1. *)
Theorem C55_node_values_partial : forall k o i (nv : list R), In (k, o) usable -> i < length (@nodes NumR k o) -> length nv = sf_dof k o -> ((k, o) = (2, 1) -> nth 0 nv 0%R = 1%R) ->
  exists (f : list R -> R) (G D : list R -> list R),
    (forall y, length y = k -> sf_value_nv (N := NumR) k o i y nv = Ok (f y) /\ sf_gradient_nv (N := NumR) k o i y nv = Ok (G y) /\ sf_gradient2_nv (N := NumR) k o i y nv = Ok (D y)) /\
    forall x, length x = k -> partials f x (G x) /\ second_partials G x (D x).
Proof. exact derivs. Qed.
(** Equal node values u scale the result by u -- by u*u for the gradient on triangles of order 1. *)
Theorem C55_uniform (N : Num) (HO : OrdFieldLaws N) (HN : NatLaws N) : forall k o i x (u : N) nv, In (k, o) usable -> length x = k -> i < length (@nodes N k o) -> nv = repeat u (sf_dof k o) ->
  returns (sf_value k o i x) (fun a => sf_value_nv k o i x nv = Ok (u * a)%num) /\
  returns (sf_gradient k o i x) (fun g => sf_gradient_nv k o i x nv = Ok (map (fun a => if (k =? 2) && (o =? 1) then u * u * a else u * a)%num g)) /\
  returns (sf_gradient2 k o i x) (fun g => sf_gradient2_nv k o i x nv = Ok (map (fun a => u * a)%num g)).
Proof. exact (uniform HO HN). Qed.
(** [BUG] Triangles of order 1: with node values (2,1,1) value(1, .) is x, but gradient(1, .) is (2, 0) (PolyShapeFunction.inl:214-215). *)
Theorem C55_gradient_refuted :
  (forall a b : R, sf_value_nv (N := NumR) 2 1 1 [a; b] [2%R; 1%R; 1%R] = Ok (2 * 0 + 1 * 1 * a + 1 * 0 * b)%R) /\
  (forall a b : R, sf_gradient_nv (N := NumR) 2 1 1 [a; b] [2%R; 1%R; 1%R] = Ok [1 * 2 * 1; 1 * 2 * 0]%R).
Proof. exact grad21_wrong. Qed.
(** [BUG] The node values multiply the monomials of one function, not the functions: with the node values (1, 0),
    value(0, x) is 1 although function 0 is 1 - x; no choice of component gives the interpolant. *)
Theorem C55_combination_refuted (N : Num) (HO : OrdFieldLaws N) (HN : NatLaws N) : forall x : N,
  sf_value 1 1 0 [x] = Ok (n1 - x)%num /\ sf_value_nv 1 1 0 [x] [n1; n0] = Ok n1 /\ sf_value_nv 1 1 1 [x] [n1; n0] = Ok n0.
Proof. exact (combo_wrong HO HN). Qed.
(** Ten node values would give correct derivatives on tetrahedra of order 2, *)
Theorem C55_tetra_table : forall i (nv : list R), i < 10 -> length nv = 10 -> exists (f : list R -> R) (G D : list R -> list R),
    (forall y, length y = 3 -> sf_value_nv (N := NumR) 3 2 i y nv = Ok (f y) /\ sf_gradient_nv (N := NumR) 3 2 i y nv = Ok (G y) /\ sf_gradient2_nv (N := NumR) 3 2 i y nv = Ok (D y)) /\
    forall x, length x = 3 -> partials f x (G x) /\ second_partials G x (D x).
Proof. exact tetra_derivs. Qed.
(** and on triangles of order 3, except for the second component of gradient2, which is only right where x = y: *)
Theorem C55_cubic_table_partial : forall i (nv : list R), i < 10 -> length nv = 10 -> exists (f : list R -> R) (G D : list R -> list R),
    (forall y, length y = 2 -> sf_value_nv (N := NumR) 2 3 i y nv = Ok (f y) /\ sf_gradient_nv (N := NumR) 2 3 i y nv = Ok (G y) /\ sf_gradient2_nv (N := NumR) 2 3 i y nv = Ok (D y)) /\
    forall x, length x = 2 -> partials f x (G x) /\
      derivable_pt_lim (fun t => nth 0 (G (upd x 0 t)) 0%R) (nth 0 x 0%R) (nth 0 (D x) 0%R) /\ (nth 0 x 0%R = nth 1 x 0%R -> second_partials G x (D x)).
Proof. exact cubic_derivs. Qed.
(** [BUG] there it has local[1] where the derivative has local[0] (PolyShapeFunction.inl:331): at (1, 0) function 6 has second derivative 27, not 0. *)
Theorem C55_cubic_second_refuted : exists G : list R -> list R, (forall y, length y = 2 -> sf_gradient_nv (N := NumR) 2 3 6 y (repeat 1%R 10) = Ok (G y)) /\
  sf_gradient2_nv (N := NumR) 2 3 6 [1; 0]%R (repeat 1%R 10) = Ok [0; 0]%R /\ derivable_pt_lim (fun t => nth 1 (G (upd [1; 0]%R 1 t)) 0%R) 0%R 27%R.
Proof. exact cubic_second_wrong. Qed.
Example C55_example : (let* g := sf_gradient (N := NumQc) 2 2 4 [Qcanon.Q2Qc (1 # 4); Qcanon.Q2Qc (1 # 3)] in let* d := sf_gradient2 (N := NumQc) 2 2 0 [Qcanon.Q2Qc (1 # 4); Qcanon.Q2Qc (1 # 3)] in
   Ok (map Qcanon.this g, map Qcanon.this d)) = Ok ([4 # 3; 1], [4; 4])%Q.
Proof. vm_compute. reflexivity. Qed.
