(** Property C56: PolyShapeFunction::prepareMesh on triangle meshes.  [ready ops s]: the mesh s was built by the program ops, then
    setupNeighbors() and any number of setupBoundaries() and prepare() were called (MeshDofSpec.v). *)
From Coq Require Import List Arith Bool ZArith QArith Lia.
From Verif Require Import Base BaseProofs Num NumInst NumEps OrdField UtilsSpec UtilsInst ExampleBase VectorModel SimplexModel SimplexSpec
  MeshModel MeshSpec MeshDofSpec MeshDofResult ShapeModel ShapeSpec PropMesh.
Import ListNotations.
Local Open Scope nat_scope.
Open Scope res_scope.

(** ** C56 *)
(** Order 1: every vertex of an element (edge) becomes a DOF vertex of it, in the same order; the rest of the mesh is unchanged. *)
Theorem C56_first_order (N : Num) : forall (ops : list (mop N)) s, valid 0 ops -> ready ops s ->
  returns (m_prepareMesh 1 s) (fun s' => keeps_mesh s s' /\ linear_nodes s s').
Proof. exact dof_first. Qed.
(** Order 2: one new vertex per face, at its midpoint, shared by the adjacent elements, implicit, on the boundary iff the face is;
    every element lists its corners and then the midpoints of the faces 01, 12, 20. *)
Theorem C56_second_order (N : Num) (HF : FieldLaws N) (HN : NatLaws N) : forall (ops : list (mop N)) s, valid 0 ops -> ready ops s ->
  returns (m_prepareMesh 2 s) (fun s' => keeps_mesh s s' /\ (exists M, new_vertices s s' M) /\ forall e, In e (mE s') -> quadratic_nodes s' e).
Proof. exact (dof_second HF HN). Qed.
(** DOF vertex i of every element is where shape function i of order 2 has its node. *)
Theorem C56_shape_order (N : Num) (HO : OrdFieldLaws N) (HN : NatLaws N) : forall (ops : list (mop N)) s, valid 0 ops -> ready ops s ->
  returns (m_prepareMesh 2 s) (fun s' => forall e, In e (mE s') -> dof_at_nodes s' e (nodes 2 2)).
Proof. exact (dof_nodes HO HN). Qed.
(** validate() gives the same verdict before and after. *)
Theorem C56_validate (N : Num) : forall (ops : list (mop N)) s, valid 0 ops -> ready ops s ->
  returns (m_prepareMesh 2 s) (fun s' => m_validate s' = m_validate s).
Proof. exact dof_validate. Qed.

(** element DOF lists; (boundary, implicit, elements) of the vertices *)
Definition dofs_of {N} (s : mst N) : list (list (option nat)) := map (fun e => match deref (he s) e with Ok x => me_dof x | _ => [] end) (mE s).
Definition kinds_of {N} (s : mst N) : list (bool * bool * list nat) :=
  map (fun p => match deref (hv s) p with Ok x => (mv_bound x, mv_impl x, mv_el x) | _ => (false, false, []) end) (mV s).
Lemma ran {A B C} (b : res A) (f : A -> res B) (g : B -> C) r : (let* s := b in let* s := f s in Ok (g s)) = Ok r -> exists s, (let* s := b in f s) = Ok s.
Proof. destruct b as [s| | | | |]; cbn [bind]; try discriminate. destruct (f s); cbn [bind]; try discriminate. eauto. Qed.
Example C56_fan_ready : exists s, ready fan s.
Proof. destruct (ran _ _ _ _ C50_fan) as (s & E). exists s. apply rd_setup. exact E. Qed.
Example C56_fan : (let* s := build fan in let* s := m_setupNeighbors s in let* s := m_setupBoundaries s in let* s := m_prepare s in let* s := m_prepareMesh 2 s in
   let* _ := m_validate s in Ok (dofs_of s, kinds_of s)) =
  Ok ([[Some 0; Some 1; Some 2; Some 4; Some 5; Some 6]; [Some 0; Some 2; Some 3; Some 6; Some 7; Some 8]; [Some 0; Some 3; Some 1; Some 8; Some 9; Some 4]],
      [(false, false, [0; 1; 2]); (true, false, [0; 2]); (true, false, [0; 1]); (true, false, [1; 2]);
       (false, true, [0; 2]); (true, true, [0]); (false, true, [0; 1]); (true, true, [1]); (false, true, [1; 2]); (true, true, [2])]).
Proof. vm_compute. reflexivity. Qed.
Example C56_fan_midpoint : (let* s := build fan in let* s := m_setupNeighbors s in let* s := m_prepareMesh 2 s in
   let* p := m_vertex s 5 in let* v := deref (hv s) p in Ok (map (fun a : NumQc => Qcanon.this a) (mv_pos v))) = Ok [1 # 1; 3 # 2]%Q.
Proof. vm_compute. reflexivity. Qed.
(** Without setupNeighbors() prepareMesh follows the null pointers in Neighbors. *)
Theorem C56_without_neighbours_refuted : forall order, (let* s := build fan in m_prepareMesh order s) = UB.
Proof. intros order. vm_compute. reflexivity. Qed.
(** [BUG] Calling prepareMesh twice lists the corners and midpoints of every element twice. *)
Theorem C56_twice_refuted : (let* s := build fan in let* s := m_setupNeighbors s in let* s := m_prepareMesh 2 s in let* s := m_prepareMesh 2 s in
   Ok (length (mV s), map (@length _) (dofs_of s))) = Ok (10, [12; 12; 12]).
Proof. vm_compute. reflexivity. Qed.
