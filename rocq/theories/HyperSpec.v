(** Specification vocabulary for HyperCube<T,2>::generate: which mesh a mesh object holds, and which part of the plane
    its elements cover. *)
From Coq Require Import List Arith Bool.
From Verif Require Import Base Num SimplexModel SimplexSpec MeshModel MeshSpec.
Import ListNotations.
Open Scope res_scope.

Section HyperSpec.
Context {N : Num}.
Notation le x y := (nleb x y = true).
Notation lt x y := (nltb x y = true).
(** The mesh has the vertices at the positions V, flagged as boundary where F holds, and the elements T with all their
    neighbourhood data. *)
Record holds (V : list (list N)) (F : nat -> Prop) (T : list (list nat)) (s : mst N) : Prop := {
  ho_count : length (mV s) = length V;
  ho_vertex : forall k, k < length V -> m_vertex s k = Ok k /\
     exists x, deref (hv s) k = Ok x /\ mv_pos x = nth k V [] /\ mv_impl x = false /\ (mv_bound x = true <-> F k);
  ho_elements : neighbourhood T s
}.
(** The point x lies in element e; in its interior. *)
Definition in_element (V : list (list N)) (T : list (list nat)) (e : nat) (x : nat -> N) : Prop :=
  exists l1 l2 : N, le n0 l1 /\ le n0 l2 /\ le n0 (n1 - l1 - l2)%num /\ barycentric (corner V T e) l1 l2 x.
Definition inside_element (V : list (list N)) (T : list (list nat)) (e : nat) (x : nat -> N) : Prop :=
  exists l1 l2 : N, lt n0 l1 /\ lt n0 l2 /\ lt n0 (n1 - l1 - l2)%num /\ barycentric (corner V T e) l1 l2 x.
(** The point x lies in the closed rectangle with lower left corner (ox, oy), width sx and height sy. *)
Definition in_box (ox oy sx sy : N) (x : nat -> N) : Prop :=
  le ox (x 0) /\ le (x 0) (ox + sx)%num /\ le oy (x 1) /\ le (x 1) (oy + sy)%num.
End HyperSpec.
