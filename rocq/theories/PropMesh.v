(** Properties C50-C52 and C66: meshes of triangles.
    [build ops]: any program adding vertices and elements through the public interface ([valid]: existing
    vertices, three different ones per element); [tris ops]: the vertex numbers of each element. *)
From Coq Require Import List Arith Bool ZArith QArith Lia.
From Verif Require Import Base BaseProofs Num NumInst NumEps OrdField UtilsSpec UtilsInst ExampleBase VectorModel SimplexModel SimplexSpec
  MeshModel MeshSpec MeshPool MeshProofs MeshResult MeshHandle MeshHandleProofs MeshValid PropLU.
Import ListNotations.
Local Open Scope nat_scope.
Open Scope res_scope.

(** ** C50 *)
(** setupNeighbors() either establishes the whole neighbourhood or throws TooManySharedFaces; it never touches the vertices. *)
Theorem C50_neighbours (N : Num) : forall ops : list (mop N), valid 0 ops ->
  post (let* s := build ops in let* s' := m_setupNeighbors s in Ok (s, s'))
    (fun r => neighbourhood (tris ops) (snd r) /\ hv (snd r) = hv (fst r) /\ mV (snd r) = mV (fst r) /\ ~ three_share_a_face (tris ops))
    (fun e => e = TooManySharedFaces /\ three_share_a_face (tris ops)).
Proof. exact setup_neighbours. Qed.
(** It throws exactly when three elements share a face. *)
Theorem C50_exact (N : Num) : forall ops : list (mop N), valid 0 ops ->
  ((let* s := build ops in m_setupNeighbors s) = Throw TooManySharedFaces <-> three_share_a_face (tris ops)) /\
  ((exists s', (let* s := build ops in m_setupNeighbors s) = Ok s' /\ neighbourhood (tris ops) s') <-> ~ three_share_a_face (tris ops)).
Proof. exact setup_iff. Qed.
(** Two elements are neighbours (each names the common edge, which names both) iff they have two common vertices. *)
Theorem C50_symmetric (N : Num) : forall (ops : list (mop N)) s', valid 0 ops -> (let* s := build ops in m_setupNeighbors s) = Ok s' ->
  forall e f, e < length (tris ops) -> f < length (tris ops) -> e <> f ->
  ((exists i j d, i < 3 /\ j < 3 /\ neighbor s' e i d /\ neighbor s' f j d /\ exists vs, is_edge s' d vs (Some e) (Some f) \/ is_edge s' d vs (Some f) (Some e)) <->
   exists x y, x <> y /\ has_face (tris ops) e x y /\ has_face (tris ops) f x y).
Proof. exact neighbours_iff. Qed.
(** vertex(i), element(i), edge(i): the i-th vertex added with its data; every edge under exactly one number; undefined past the end. *)
Theorem C50_access (N : Num) : forall (ops : list (mop N)) s', valid 0 ops -> (let* s := build ops in m_setupNeighbors s) = Ok s' ->
  (forall k, k < length (points ops) -> m_vertex s' k = Ok k /\ exists x, deref (hv s') k = Ok x /\ mv_gi x = k /\ mv_pos x = nth k (points ops) [] /\
     (mv_bound x = true <-> marked ops k) /\ forall e, In e (mv_el x) <-> e < length (tris ops) /\ In k (nth e (tris ops) [])) /\
  (forall k, length (points ops) <= k -> m_vertex s' k = UB) /\
  (forall e, length (tris ops) <= e -> m_element s' e = UB) /\
  (forall d vs e0 e1, is_edge s' d vs e0 e1 -> exists k, k < length (mD s') /\ m_edge s' k = Ok d /\ forall j, m_edge s' j = Ok d -> j = k) /\
  (forall k, k < length (mD s') -> exists d vs e0 e1, m_edge s' k = Ok d /\ is_edge s' d vs e0 e1) /\
  (forall k, length (mD s') <= k -> m_edge s' k = UB).
Proof. exact setup_access. Qed.
Theorem C50_again (N : Num) : forall (ops : list (mop N)) s', valid 0 ops -> (let* s := build ops in m_setupNeighbors s) = Ok s' -> m_setupNeighbors s' = Ok s'.
Proof. exact setup_idempotent. Qed.

(** A fan of three triangles around vertex 0: (0,1,2), (0,2,3), (0,3,1). *)
Definition pt (x y : Z) : list NumQc := [qz x; qz y].
Definition fan_vertices : list (mop NumQc) := [AddVertex (pt 0 0); AddVertex (pt 4 0); AddVertex (pt (-2) 3); AddVertex (pt (-2) (-3))].
Definition fan : list (mop NumQc) := fan_vertices ++ [AddElement 0 1 2; AddElement 0 2 3; AddElement 0 3 1].
(** edges as (vertices, elements) *)
Definition edges_of {N} (s : mst N) : list (list (option nat) * option nat * option nat) :=
  map (fun d => match deref (hd s) d with Ok x => (ed_v x, ed_e0 x, ed_e1 x) | _ => ([], None, None) end) (mD s).
Definition flags_of {N} (s : mst N) : list bool := map (fun p => match deref (hv s) p with Ok x => mv_bound x | _ => false end) (mV s).
Example C50_fan_valid : valid 0 fan.
Proof. cbn. repeat split; lia || discriminate. Qed.
Example C50_fan : (let* s := build fan in let* s := m_setupNeighbors s in Ok (edges_of s)) =
  Ok [([Some 1; Some 2], Some 0, None); ([Some 0; Some 2], Some 0, Some 1); ([Some 0; Some 1], Some 0, Some 2);
      ([Some 2; Some 3], Some 1, None); ([Some 0; Some 3], Some 1, Some 2); ([Some 3; Some 1], Some 2, None)].
Proof. vm_compute. reflexivity. Qed.
Definition book : list (mop NumQc) := fan_vertices ++ [AddVertex (pt 9 9); AddElement 0 1 2; AddElement 0 1 3; AddElement 1 4 0].
Example C50_book : valid 0 book /\ three_share_a_face (tris book) /\ (let* s := build book in m_setupNeighbors s) = Throw TooManySharedFaces.
Proof.
  split; [cbn; repeat split; lia || discriminate|]. split; [|vm_compute; reflexivity].
  exists 0, 1, 0, 1, 2. unfold has_face. cbn. repeat split; auto; lia.
Qed.
(** [BUG] Adding an element after setupNeighbors() and calling it again leaves the old edge in the list: the face (0,1)
    is listed twice, and setupBoundaries() then flags the interior vertex 0. *)
Theorem C50_incremental_refuted :
  (let* s := build (fan_vertices ++ [AddElement 0 1 2; AddElement 0 2 3]) in let* s := m_setupNeighbors s in
   let* s := do_op (AddElement 0 3 1) s in let* s := m_setupNeighbors s in
   let* s' := m_setupBoundaries s in Ok (edges_of s, flags_of s')) =
  Ok ([([Some 1; Some 2], Some 0, None); ([Some 0; Some 2], Some 0, Some 1); ([Some 0; Some 1], Some 0, None);
       ([Some 2; Some 3], Some 1, None); ([Some 0; Some 3], Some 1, None);
       ([Some 3; Some 1], Some 2, None); ([Some 0; Some 1], Some 2, Some 0); ([Some 0; Some 3], Some 2, Some 1)],
      [true; true; true; true]).
Proof. vm_compute. reflexivity. Qed.

(** ** C51 *)
(** setupBoundaries() flags exactly the vertices of faces with a single element (besides those flagged by the program)
    and changes nothing else. *)
Theorem C51_boundary (N : Num) : forall (ops : list (mop N)) s', valid 0 ops -> (let* s := build ops in m_setupNeighbors s) = Ok s' ->
  returns (m_setupBoundaries s') (fun s'' =>
    he s'' = he s' /\ hd s'' = hd s' /\ mV s'' = mV s' /\ mE s'' = mE s' /\ mD s'' = mD s' /\
    forall k, k < length (points ops) -> exists x, deref (hv s') k = Ok x /\ exists b,
      deref (hv s'') k = Ok (mkMV b (mv_impl x) (mv_gi x) (mv_pos x) (mv_el x)) /\
      (b = true <-> (marked ops k \/ exists y, outer_face (tris ops) k y))).
Proof. exact setup_boundaries. Qed.
Example C51_fan : (let* s := build fan in let* s := m_setupNeighbors s in let* s := m_setupBoundaries s in Ok (flags_of s)) =
  Ok [false; true; true; true].
Proof. vm_compute. reflexivity. Qed.

(** ** C52 *)
(** Every history of copies, moves, assignments and destructions that copies from and uses only non-empty handles, and does not
    assign the only handle of a mesh to itself, runs without undefined behaviour. *)
Theorem C52_safe (N : Num) : forall (s : hst N) o, reachable s -> allowed o s -> exists s', h_step o s = Ok s' /\ reachable s'.
Proof. exact handles_safe. Qed.
(** The shared data are alive exactly as long as some handle points to them, and count the handles. *)
Theorem C52_shared (N : Num) : forall s : hst N, reachable s -> forall p,
  (0 < count p (vars s) <-> exists d, deref (cells s) p = Ok d) /\
  (forall d, deref (cells s) p = Ok d -> fst d = count p (vars s) /\ owning (snd d)).
Proof. exact handles_refs. Qed.
(** Freed data are never freed or touched again. *)
Theorem C52_freed_once (N : Num) : forall o (s s' : hst N) p, h_step o s = Ok s' -> nth_error (cells s) p = Some None -> nth_error (cells s') p = Some None.
Proof. exact step_none. Qed.
(** Anything else is undefined behaviour. *)
Theorem C52_exact (N : Num) : forall (s : hst N) o, reachable s -> (forall x f, o <> HUse x f) -> ~ allowed o s -> h_step o s = UB.
Proof. exact handles_exact. Qed.
(** clear() deletes every vertex and element of the list once, and nothing else; the edges stay. *)
Theorem C52_clear (N : Num) : forall s : mst N, owning s -> returns (m_clear s) (fun s' =>
  mV s' = [] /\ mE s' = [] /\ mD s' = mD s /\ hd s' = hd s /\
  (forall p, In p (mV s) -> nth_error (hv s') p = Some None) /\ (forall p, ~ In p (mV s) -> nth_error (hv s') p = nth_error (hv s) p) /\
  (forall p, In p (mE s) -> nth_error (he s') p = Some None) /\ (forall p, ~ In p (mE s) -> nth_error (he s') p = nth_error (he s) p)).
Proof. exact clear_ok. Qed.
(** The mesh stays the owner of different live objects under all building operations. *)
Theorem C52_owner (N : Num) : forall f : mst N -> res (mst N),
  (exists o, f = do_op o) \/ f = m_setupNeighbors \/ f = m_setupBoundaries \/ f = m_prepare \/ f = m_clear ->
  forall s s', owning s -> f s = Ok s' -> owning s'.
Proof. exact owning_kept. Qed.
(** m; n(m); m = n; use; n destroyed; m = m (sole owner). *)
Example C52_history : let run := foreach [HNew; HCopy 0; HAssign 0 1; HUse 1 (do_op (AddVertex (pt 1 2))); HMove 1; HDestroy 1; HDestroy 2] h_step (@h_start NumQc) in
  (let* s := run in Ok (vars s, map (option_map (fun d => (fst d, length (mV (snd d))))) (cells s))) = Ok ([At 0; Gone; Gone], [Some (1, 1)]) /\
  (let* s := run in h_step (HDestroy 0) s) = Ok (mkH [None] [Gone; Gone; Gone]) /\
  (let* s := run in h_step (HMoveAssign 0 0) s) = Ok (mkH [None] [Null; Gone; Gone]).
Proof. vm_compute. repeat split. Qed.
(** [BUG] Self-assignment of the only handle frees the data and then uses them. *)
Theorem C52_self_assignment_refuted (N : Num) :
  exists s : hst N, reachable s /\ full s 0 0 /\ h_step (HAssign 0 0) s = UB.
Proof.
  exists (mkH [Some (1, m_new)] [At 0]). split; [|split; reflexivity].
  eapply (r_step h_start HNew); [apply r_start|exact I|reflexivity].
Qed.
(** [BUG] Copying a moved-from handle dereferences nullptr. *)
Theorem C52_moved_from_refuted (N : Num) :
  exists s : hst N, reachable s /\ live s 0 /\ h_step (HCopy 0) s = UB.
Proof.
  exists (mkH [Some (1, m_new)] [Null; At 0]). split; [|split; [exists Null; split; [reflexivity|discriminate]|reflexivity]].
  eapply (r_step (mkH [Some (1, m_new)] [At 0]) (HMove 0)); [|exists (At 0); split; [reflexivity|discriminate]|reflexivity].
  eapply (r_step h_start HNew); [apply r_start|exact I|reflexivity].
Qed.
(** [BUG] clear() keeps the edges, which still point to the deleted vertices: a following setupBoundaries() uses them, and
    the edges themselves are never deleted. *)
Theorem C52_clear_refuted :
  (let* s := build fan in let* s := m_setupNeighbors s in let* s := m_clear s in
   Ok (length (mD s), forallb (fun o => match o with Some _ => true | None => false end) (hd s))) = Ok (6, true) /\
  (let* s := build fan in let* s := m_setupNeighbors s in let* s := m_clear s in m_setupBoundaries s) = UB.
Proof. split; vm_compute; reflexivity. Qed.

(** ** C66 *)
(** prepare() prepares the simplex of every element, whose corners are the positions of its vertices. *)
Theorem C66_prepare (N : Num) (HO : OrdFieldLaws N) : forall (ops : list (mop N)) s, valid 0 ops -> (let* s := build ops in m_setupNeighbors s) = Ok s ->
  returns (m_prepare s) (fun s' => hv s' = hv s /\ hd s' = hd s /\ mV s' = mV s /\ mE s' = mE s /\ mD s' = mD s /\
    forall e, e < length (tris ops) -> exists x x', deref (he s) e = Ok x /\ deref (he s') e = Ok x' /\ me_v x' = me_v x /\ me_n x' = me_n x /\
       me_dof x' = me_dof x /\ sx_prepare (me_sx x) = Ok (me_sx x') /\ corners (me_sx x') (corner (points ops) (tris ops) e)).
Proof. exact (prepare_mesh_ok HO). Qed.
(** validate() throws IsolatedVertex if some vertex belongs to no element, otherwise ZeroVolumeSimplex if some element has
    (numerically) no area, otherwise returns. *)
Theorem C66_validate (N : Num) (HO : OrdFieldLaws N) (HN : NatLaws N) : forall (ops : list (mop N)) s s', valid 0 ops ->
  (let* s := build ops in m_setupNeighbors s) = Ok s -> m_prepare s = Ok s' ->
  ((exists k, k < length (points ops) /\ isolated (tris ops) k) -> m_validate s' = Throw IsolatedVertex) /\
  ((forall k, k < length (points ops) -> ~ isolated (tris ops) k) -> (exists e, e < length (tris ops) /\ thin (corner (points ops) (tris ops) e) = true) -> m_validate s' = Throw ZeroVolumeSimplex) /\
  ((forall k, k < length (points ops) -> ~ isolated (tris ops) k) -> (forall e, e < length (tris ops) -> thin (corner (points ops) (tris ops) e) = false) -> m_validate s' = Ok tt).
Proof. exact (validate_ok HO HN). Qed.
Example C66_fan : (let* s := build fan in let* s := m_setupNeighbors s in let* s := m_prepare s in m_validate s) = Ok tt.
Proof. vm_compute. reflexivity. Qed.
Example C66_isolated : (let* s := build (fan ++ [AddVertex (pt 7 7)]) in let* s := m_setupNeighbors s in let* s := m_prepare s in m_validate s) = Throw IsolatedVertex.
Proof. vm_compute. reflexivity. Qed.
Example C66_flat : (let* s := build (fan ++ [AddVertex (pt 2 0); AddElement 0 1 4]) in m_setupNeighbors s) = Throw TooManySharedFaces /\
  (let* s := build ([AddVertex (pt 0 0); AddVertex (pt 1 1); AddVertex (pt 2 2); AddElement 0 1 2]) in
   let* s := m_setupNeighbors s in let* s := m_prepare s in m_validate s) = Throw ZeroVolumeSimplex.
Proof. split; vm_compute; reflexivity. Qed.
(** Without prepare(), or without setupNeighbors(), validate() does not succeed. *)
Example C66_forgotten :
  (let* s := build fan in let* s := m_setupNeighbors s in m_validate s) = Abort /\
  (let* s := build fan in let* s := m_prepare s in m_validate s) = Throw MalformedElementNeighborConnection.
Proof. split; vm_compute; reflexivity. Qed.
