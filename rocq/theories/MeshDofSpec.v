(** Specification vocabulary for prepareMesh: the DOF vertices of elements and edges. *)
From Coq Require Import List Arith Bool.
From Verif Require Import Base Num SimplexModel SimplexSpec MeshModel MeshSpec.
Import ListNotations.
Open Scope res_scope.

Section MeshDofSpec.
Context {N : Num}.
(** The mesh built by ops after setupNeighbors() and any number of calls of setupBoundaries() and prepare(). *)
Inductive ready (ops : list (mop N)) : mst N -> Prop :=
| rd_setup s : (let* s := build ops in m_setupNeighbors s) = Ok s -> ready ops s
| rd_boundaries s s' : ready ops s -> m_setupBoundaries s = Ok s' -> ready ops s'
| rd_prepare s s' : ready ops s -> m_prepare s = Ok s' -> ready ops s'.
(** The vertex p of the mesh lies at the position x. *)
Definition vertex_at (s : mst N) (p : nat) (x : list N) : Prop := exists v, deref (hv s) p = Ok v /\ mv_pos v = x.
Definition midpoint (x y : list N) : list N := [(nth 0 x n0 + nth 0 y n0) / (n1 + n1); (nth 1 x n0 + nth 1 y n0) / (n1 + n1)]%num.
(** Nothing but DOF lists was added for the objects of s. *)
Record keeps_mesh (s s' : mst N) : Prop := {
  km_lists : mE s' = mE s /\ mD s' = mD s /\ exists l, mV s' = mV s ++ l;
  km_vertices : forall k, In k (mV s) -> deref (hv s') k = deref (hv s) k;
  km_elements : forall e, In e (mE s) -> exists x x', deref (he s) e = Ok x /\ deref (he s') e = Ok x' /\
    me_sx x' = me_sx x /\ me_v x' = me_v x /\ me_n x' = me_n x;
  km_edges : forall d, In d (mD s) -> exists x x', deref (hd s) d = Ok x /\ deref (hd s') d = Ok x' /\
    ed_v x' = ed_v x /\ ed_e0 x' = ed_e0 x /\ ed_e1 x' = ed_e1 x
}.
(** Order 1: the DOF vertices are the vertices, in the same order. *)
Record linear_nodes (s s' : mst N) : Prop := {
  ln_same : hv s' = hv s /\ mV s' = mV s;
  ln_element : forall e, In e (mE s) -> exists x, deref (he s') e = Ok x /\ me_dof x = me_v x;
  ln_edge : forall d, In d (mD s) -> exists x, deref (hd s') d = Ok x /\ ed_dof x = ed_v x
}.
(** Every edge d has got exactly one new vertex M d: there are as many new vertices as edges, and different edges have
    different ones. *)
Record new_vertices (s s' : mst N) (M : nat -> nat) : Prop := {
  nw_count : length (mV s') = length (mV s) + length (mD s);
  nw_range : forall d, In d (mD s) -> length (mV s) <= M d < length (mV s') /\ m_vertex s' (M d) = Ok (M d);
  nw_inj : forall d d', In d (mD s) -> In d' (mD s) -> M d = M d' -> d = d';
  (* it is implicit, numbered, at the midpoint, on the boundary iff the edge is, and belongs to the edge's elements *)
  nw_vertex : forall d x y e0 e1, is_edge s d [x; y] e0 e1 -> forall px py, vertex_at s x px -> vertex_at s y py ->
    exists v, deref (hv s') (M d) = Ok v /\ mv_impl v = true /\ mv_gi v = M d /\ mv_pos v = midpoint px py /\
      (mv_bound v = true <-> e1 = None) /\ NoDup (mv_el v) /\ forall e, In e (mv_el v) <-> e0 = Some e \/ e1 = Some e;
  nw_edge : forall d, In d (mD s) -> exists x, deref (hd s') d = Ok x /\ ed_dof x = ed_v x ++ [Some (M d)];
  (* the element lists its corners and then the vertices of the edges opposite to its third, first and second corner *)
  nw_element : forall e, In e (mE s) -> exists x d0 d1 d2, deref (he s') e = Ok x /\ me_n x = [Some d0; Some d1; Some d2] /\
    me_dof x = me_v x ++ [Some (M d2); Some (M d0); Some (M d1)]
}.
(** The element's DOF vertices are its corners a, b, c and vertices at the midpoints of ab, bc, ca. *)
Definition quadratic_nodes (s : mst N) (e : nat) : Prop :=
  exists x a b c p q r pa pb pc, deref (he s) e = Ok x /\ me_v x = [Some a; Some b; Some c] /\
    me_dof x = [Some a; Some b; Some c; Some p; Some q; Some r] /\
    length pa = 2 /\ length pb = 2 /\ length pc = 2 /\
    vertex_at s a pa /\ vertex_at s b pb /\ vertex_at s c pc /\
    vertex_at s p (midpoint pa pb) /\ vertex_at s q (midpoint pb pc) /\ vertex_at s r (midpoint pc pa).
(** The image of the point x of the standard triangle in the triangle pa, pb, pc. *)
Definition image (pa pb pc x : list N) : list N :=
  map (fun k => nth k pa n0 + nth 0 x n0 * (nth k pb n0 - nth k pa n0) + nth 1 x n0 * (nth k pc n0 - nth k pa n0))%num [0; 1].
(** DOF vertex i of the element lies at the image of node i of the standard triangle. *)
Definition dof_at_nodes (s : mst N) (e : nat) (l : list (list N)) : Prop :=
  exists x a b c pa pb pc, deref (he s) e = Ok x /\ me_v x = [Some a; Some b; Some c] /\
    vertex_at s a pa /\ vertex_at s b pb /\ vertex_at s c pc /\ length (me_dof x) = length l /\
    forall i, i < length l -> exists p, nth_error (me_dof x) i = Some (Some p) /\ vertex_at s p (image pa pb pc (nth i l [])).
End MeshDofSpec.
