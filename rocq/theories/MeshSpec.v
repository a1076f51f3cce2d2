(** Specification vocabulary for the mesh properties: programs building a mesh through the public interface,
    and what the public members of elements, vertices and edges say. *)
From Coq Require Import List Arith Bool.
From Verif Require Import Base Num SimplexModel SimplexSpec MeshModel.
Import ListNotations.
Open Scope res_scope.

Section MeshSpec.
Context {N : Num}.
(** What a program does to build a mesh (Mesh.h:79-91, "First ... Second ..."):
    addVertex(new MeshVertex(pos)); vertex(i)->Flags |= MVF_StrongBoundary; and addElement of a new element
    whose Vertices are vertex(a), vertex(b), vertex(c). *)
Inductive mop : Type :=
| AddVertex (pos : list N)
| Mark (i : nat)
| AddElement (a b c : nat).
Definition do_op (o : mop) (s : mst N) : res (mst N) :=
  match o with
  | AddVertex pos => let '(s, p) := new_vertex s pos in m_addVertex s (Some p)
  | Mark i => let* p := m_vertex s i in or_flags s p true false
  | AddElement a b c =>
      let* p := m_vertex s a in let* q := m_vertex s b in let* r := m_vertex s c in
      let '(s, e) := new_element s [Some p; Some q; Some r] in m_addElement s (Some e)
  end.
Definition build (ops : list mop) : res (mst N) := foreach ops do_op m_new.

(** The program is sensible: points of the plane, existing vertices, three different vertices per element. *)
Fixpoint valid (n : nat) (ops : list mop) : Prop :=
  match ops with
  | [] => True
  | AddVertex pos :: r => length pos = 2 /\ valid (S n) r
  | Mark i :: r => i < n /\ valid n r
  | AddElement a b c :: r => (a < n /\ b < n /\ c < n) /\ (a <> b /\ a <> c /\ b <> c) /\ valid n r
  end.
(** The elements as lists of vertex numbers, the positions, and the vertices marked by hand. *)
Fixpoint tris (ops : list mop) : list (list nat) :=
  match ops with [] => [] | AddElement a b c :: r => [a; b; c] :: tris r | _ :: r => tris r end.
Fixpoint points (ops : list mop) : list (list N) :=
  match ops with [] => [] | AddVertex p :: r => p :: points r | _ :: r => points r end.
Definition marked (ops : list mop) (i : nat) : Prop := In (Mark i) ops.

(** The public members. *)
Definition is_element (s : mst N) (e : nat) (vs : list nat) : Prop :=
  m_element s e = Ok e /\ exists x, deref (he s) e = Ok x /\ me_v x = map Some vs.
Definition neighbor (s : mst N) (e i d : nat) : Prop :=
  exists x, deref (he s) e = Ok x /\ nth_error (me_n x) i = Some (Some d).
Definition is_edge (s : mst N) (d : nat) (vs : list nat) (e0 e1 : option nat) : Prop :=
  In d (mD s) /\ exists x, deref (hd s) d = Ok x /\ ed_v x = map Some vs /\ ed_e0 x = e0 /\ ed_e1 x = e1.
Definition boundary_flag (s : mst N) (p : nat) (b : bool) : Prop :=
  exists x, deref (hv s) p = Ok x /\ mv_bound x = b.

(** Faces: the element's vertices without the i-th. *)
Definition without (i : nat) (l : list nat) : list nat := firstn i l ++ skipn (S i) l.
Definition same_set (l k : list nat) : Prop := forall x, In x l <-> In x k.
(** Element e of the list T has the vertices x and y. *)
Definition has_face (T : list (list nat)) (e x y : nat) : Prop :=
  e < length T /\ In x (nth e T []) /\ In y (nth e T []).
Definition three_share_a_face (T : list (list nat)) : Prop :=
  exists x y e f g, x <> y /\ e <> f /\ e <> g /\ f <> g /\ has_face T e x y /\ has_face T f x y /\ has_face T g x y.

(** A face with a single element. *)
Definition outer_face (T : list (list nat)) (x y : nat) : Prop :=
  x <> y /\ exists e, has_face T e x y /\ forall f, has_face T f x y -> f = e.
(** A vertex of no element. *)
Definition isolated (T : list (list nat)) (k : nat) : Prop := forall e, e < length T -> ~ In k (nth e T []).
(** Coordinate k of corner i of element e. *)
Definition corner (V : list (list N)) (T : list (list nat)) (e i k : nat) : N := nth k (nth (nth i (nth e T []) 0) V []) n0.
(** The computed volume is at most epsilon. *)
Definition thin (p : nat -> nat -> N) : bool := flat p || nleb (nabs (area2 p) / (n1 + n1))%num neps.

(** The neighbourhood data describe the triangles T. *)
Record neighbourhood (T : list (list nat)) (s : mst N) : Prop := {
  nh_count : length (mE s) = length T;
  nh_elements : forall e, e < length T -> is_element s e (nth e T []);
  (* Neighbors[i] is the edge consisting of the other two vertices *)
  nh_face : forall e i, e < length T -> i < 3 ->
    exists d vs e0 e1, neighbor s e i d /\ is_edge s d vs e0 e1 /\ same_set vs (without i (nth e T []));
  nh_alive : forall d, In d (mD s) -> exists vs e0 e1, is_edge s d vs e0 e1;
  (* Elements[] of an edge are exactly the (one or two) elements having both vertices *)
  nh_edge : forall d vs e0 e1, is_edge s d vs e0 e1 ->
    exists x y e, vs = [x; y] /\ x <> y /\ e0 = Some e /\ e1 <> Some e /\
      forall f, has_face T f x y <-> (e0 = Some f \/ e1 = Some f);
  (* no face is listed twice *)
  nh_once : NoDup (mD s) /\ (forall d d' vs vs' a b a' b', is_edge s d vs a b -> is_edge s d' vs' a' b' -> same_set vs vs' -> d = d')
}.
End MeshSpec.
Arguments mop : clear implicits.
