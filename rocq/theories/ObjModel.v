(** Model of src/objloader/loader/MeshObjLoader.inl, after tinyobj::LoadObj (third-party code, not modelled) has
    filled the list of shapes. *)
From Coq Require Import List Arith Bool.
From Verif Require Import Base Num VectorModel SimplexModel MeshModel.
Import ListNotations.
Open Scope res_scope.

(** tinyobj::shape_t as far as it is used: mesh.positions (already converted to T: the cast (T) is not modelled)
    and mesh.indices, MeshObjLoader.inl:46-47 *)
Record shape (N : Num) : Type := mkShape { positions : list N; indices : list nat }.
Arguments mkShape {N} _ _. Arguments positions {N} _. Arguments indices {N} _.
(** LoadObjErrorException, MeshObjLoader.h:12 *)
Definition LoadObjError : exn := LoaderError 2.

Section Obj.
Context {N : Num}.
(** reserveVertices / reserveElements, Mesh.inl:129-134, 162-167: the assertion; the capacity is not observable *)
Definition m_reserve (count : nat) : res unit := assert_ (0 <? count).
(** The loop body for vertex i, MeshObjLoader.inl:52-58 *)
Definition obj_vertex (yI xI : nat) (pos : list N) (i : nat) (s : mst N) : res (mst N) :=
  let* x := vget pos (3 * i + xI) in
  let* y := vget pos (3 * i + yI) in
  let '(s, p) := new_vertex s [x; y] in
  m_addVertex s (Some p).
(** Vertices[j] = mesh.vertex(idx) with the range check, MeshObjLoader.inl:65-70 *)
Definition obj_corner (idxs : list nat) (vc i j : nat) (s : mst N) : res nat :=
  let* idx := vget idxs (3 * i + j) in
  if vc <=? idx then Throw LoadObjError else m_vertex s idx.
(** The loop body for element i, MeshObjLoader.inl:60-74.  The element is allocated after its corners are known:
    nothing can observe the object in between (if the check throws it is leaked). *)
Definition obj_element (idxs : list nat) (vc i : nat) (s : mst N) : res (mst N) :=
  let* a := obj_corner idxs vc i 0 s in
  let* b := obj_corner idxs vc i 1 s in
  let* c := obj_corner idxs vc i 2 s in
  let '(s, e) := new_element s [Some a; Some b; Some c] in
  m_addElement s (Some e).
(** load, MeshObjLoader.inl:37-81: only the first shape is read *)
Definition obj_load (yI xI : nat) (shapes : list (shape N)) : res (mst N) :=
  let* s := (match shapes with
             | [] => Ok m_new
             | sh :: _ =>
               let vc := length (positions sh) / 3 in
               let ec := length (indices sh) / 3 in
               let* _ := m_reserve vc in
               let* _ := m_reserve ec in
               let* s := for_ 0 vc (obj_vertex yI xI (positions sh)) m_new in
               for_ 0 ec (obj_element (indices sh) vc) s
             end) in
  m_setupNeighbors s.
End Obj.
