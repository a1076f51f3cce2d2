(** Model of Mesh::setVertex and Mesh::setElement, src/lib/mesh/Mesh.inl:150-154, 189-193.
    Simplification: the pointer given is not nullptr (the lists of the model hold non-null pointers). *)
From Coq Require Import List Arith Bool.
From Verif Require Import Base Num MeshModel.
Import ListNotations.
Open Scope res_scope.
Section MeshSet.
Context {N : Num}.
(** setVertex, Mesh.inl:150-154: mData->Vertices[i] = vertex, an unchecked vector access *)
Definition m_setVertex (s : mst N) (i p : nat) : res (mst N) :=
  let* l := vset (mV s) i p in Ok (mkM (hv s) (he s) (hd s) l (mE s) (mD s)).
(** setElement, Mesh.inl:189-193 *)
Definition m_setElement (s : mst N) (i p : nat) : res (mst N) :=
  let* l := vset (mE s) i p in Ok (mkM (hv s) (he s) (hd s) (mV s) l (mD s)).
End MeshSet.
