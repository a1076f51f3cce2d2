(** Property C83: replacing entries of a mesh with setVertex and setElement.
    [owning]: the vertex and element lists hold different pointers to live objects; [deref]: the object behind a
    pointer, UB if it was deleted. *)
From Coq Require Import List Arith Bool ZArith.
From Verif Require Import Base BaseProofs Num NumInst ExampleBase MeshModel MeshSpec MeshHandle MeshSet MeshSetProofs PropMesh.
Import ListNotations.
Local Open Scope nat_scope.
Open Scope res_scope.

(** Exactly entry i of the list changes: no object is modified (in particular the index of the new vertex and the
    elements referring to the old one), and nothing is deleted. *)
Theorem C83_vertex (N : Num) : forall (s : mst N) i p, i < length (mV s) -> returns (m_setVertex s i p) (fun s' =>
  m_vertex s' i = Ok p /\ length (mV s') = length (mV s) /\ (forall j, j <> i -> m_vertex s' j = m_vertex s j) /\
  hv s' = hv s /\ he s' = he s /\ hd s' = hd s /\ mE s' = mE s /\ mD s' = mD s).
Proof. exact setVertex_ok. Qed.
Theorem C83_element (N : Num) : forall (s : mst N) i p, i < length (mE s) -> returns (m_setElement s i p) (fun s' =>
  m_element s' i = Ok p /\ length (mE s') = length (mE s) /\ (forall j, j <> i -> m_element s' j = m_element s j) /\
  hv s' = hv s /\ he s' = he s /\ hd s' = hd s /\ mV s' = mV s /\ mD s' = mD s).
Proof. exact setElement_ok. Qed.
(** An index out of range is undefined behaviour. *)
Theorem C83_range (N : Num) : forall (s : mst N) i p,
  (length (mV s) <= i -> m_setVertex s i p = UB) /\ (length (mE s) <= i -> m_setElement s i p = UB).
Proof. exact set_range. Qed.
(** The mesh can still be cleared (and destroyed) exactly if the new object is alive and is not listed a second time;
    otherwise clear() deletes something twice. *)
Theorem C83_vertex_clear (N : Num) : forall (s s' : mst N) i p, owning s -> m_setVertex s i p = Ok s' ->
  ((exists x, deref (hv s) p = Ok x) /\ (forall j, j <> i -> m_vertex s j <> Ok p) -> exists s'', m_clear s' = Ok s'') /\
  (((forall x, deref (hv s) p <> Ok x) \/ exists j, j <> i /\ m_vertex s j = Ok p) -> m_clear s' = UB).
Proof. exact setVertex_clear. Qed.
Theorem C83_element_clear (N : Num) : forall (s s' : mst N) i p, owning s -> m_setElement s i p = Ok s' ->
  ((exists x, deref (he s) p = Ok x) /\ (forall j, j <> i -> m_element s j <> Ok p) -> exists s'', m_clear s' = Ok s'') /\
  (((forall x, deref (he s) p <> Ok x) \/ exists j, j <> i /\ m_element s j = Ok p) -> m_clear s' = UB).
Proof. exact setElement_clear. Qed.
(** In particular clear() is defined exactly on the meshes owning their objects. *)
Theorem C83_clear_exact (N : Num) : forall s : mst N, (owning s -> exists s', m_clear s = Ok s') /\ (~ owning s -> m_clear s = UB).
Proof. exact clear_iff. Qed.
(** [BUG] The replaced object is not deleted by setVertex/setElement, nor by clear(): only the program can still free it. *)
Theorem C83_vertex_kept (N : Num) : forall (s s' : mst N) i p q, owning s -> (exists x, deref (hv s) p = Ok x) -> (forall j, m_vertex s j <> Ok p) ->
  m_vertex s i = Ok q -> m_setVertex s i p = Ok s' ->
  returns (m_clear s') (fun s'' => deref (hv s'') p = UB /\ deref (hv s'') q = deref (hv s) q /\ exists x, deref (hv s'') q = Ok x).
Proof. exact setVertex_leak. Qed.
Theorem C83_element_kept (N : Num) : forall (s s' : mst N) i p q, owning s -> (exists x, deref (he s) p = Ok x) -> (forall j, m_element s j <> Ok p) ->
  m_element s i = Ok q -> m_setElement s i p = Ok s' ->
  returns (m_clear s') (fun s'' => deref (he s'') p = UB /\ deref (he s'') q = deref (he s) q /\ exists x, deref (he s'') q = Ok x).
Proof. exact setElement_leak. Qed.
(** Replacing a vertex of a valid mesh by a newly created one always makes the mesh invalid: setVertex does not set the
    index, and no element knows the new vertex. *)
Theorem C83_validate (N : Num) : forall (s : mst N) i pos, i < length (mV s) -> m_validate s = Ok tt ->
  (let '(s, p) := new_vertex s pos in let* s := m_setVertex s i p in m_validate s) =
  Throw (if i =? 0 then IsolatedVertex else InvalidVertexIndex).
Proof. exact setVertex_validate. Qed.

(** The fan of C50: replacing vertex 2 by a new one; by vertex 1; and element 0 by element 1. *)
Example C83_fan : let mesh := let* s := build fan in let* s := m_setupNeighbors s in m_prepare s in
  (let* s := mesh in m_validate s) = Ok tt /\
  (let* s := mesh in let '(s, p) := new_vertex s (pt 5 5) in let* s := m_setVertex s 2 p in Ok (mV s)) = Ok [0; 1; 4; 3] /\
  (let* s := mesh in let '(s, p) := new_vertex s (pt 5 5) in let* s := m_setVertex s 2 p in m_validate s) = Throw InvalidVertexIndex /\
  (let* s := mesh in let '(s, p) := new_vertex s (pt 5 5) in let* s := m_setVertex s 0 p in m_validate s) = Throw IsolatedVertex /\
  (let* s := mesh in let '(s, p) := new_vertex s (pt 5 5) in let* s := m_setVertex s 2 p in let* s := m_clear s in
   Ok (map (fun o => match o with Some _ => true | None => false end) (hv s))) = Ok [false; false; true; false; false] /\
  (let* s := mesh in let* s := m_setVertex s 2 1 in let* s := m_clear s in Ok (mV s)) = UB /\
  (let* s := mesh in let* s := m_setElement s 0 1 in let* s := m_clear s in Ok (mV s)) = UB /\
  (let* s := mesh in let* s := m_setVertex s 4 1 in Ok (mV s)) = UB.
Proof. vm_compute. repeat split. Qed.
