(** Specification vocabulary for the finite element example: shape functions on the standard triangle, element matrices and the
    linear system of a mesh, stated without the program's loops. *)
From Coq Require Import List Arith Bool ZArith.
From Verif Require Import Base Num Spec SimplexModel SimplexSpec MeshModel MeshSpec MeshDofSpec QuadModel DetSpec FemModel.
Import ListNotations.
Local Open Scope nat_scope.
Open Scope res_scope.

Section FemSpec.
Context {N : Num}.
Local Notation two := (n1 + n1)%num.
(** *** The standard triangle *)
(** barycentric coordinates of (x, y), and their gradients *)
Definition bary (k : nat) (x y : N) : N := match k with 0 => n1 - x - y | 1 => x | _ => y end%num.
Definition dbary (k c : nat) : N := match k, c with 0, _ => - n1 | 1, 0 => n1 | 1, _ => n0 | _, 0 => n0 | _, _ => n1 end%num.
(** the corner functions l (2l - 1) and the edge functions 4 l l' of order 2; the edges are 01, 12, 20 *)
Definition edge_of (k : nat) : nat * nat := match k with 3 => (0, 1) | 4 => (1, 2) | _ => (2, 0) end.
Definition shape (o k : nat) (x y : N) : N :=
  match o with
  | 1 => bary k x y
  | _ => if k <? 3 then bary k x y * (two * bary k x y - n1)
         else two * two * (bary (fst (edge_of k)) x y * bary (snd (edge_of k)) x y)
  end%num.
Definition dshape (o k c : nat) (x y : N) : N :=
  match o with
  | 1 => dbary k c
  | _ => if k <? 3 then (two * two * bary k x y - n1) * dbary k c
         else two * two * (dbary (fst (edge_of k)) c * bary (snd (edge_of k)) x y + bary (fst (edge_of k)) x y * dbary (snd (edge_of k)) c)
  end%num.
(** The quadrature rule of order o + 1: its points, and its weights, which are halved. *)
Definition qp (o q c : nat) : N := nth c (nth q (gl_points 2 (o + 1)) []) n0.
Definition qw (o q : nat) : N := (nth q (snd (gl_table 2 (o + 1))) n0 / two)%num.
Definition rule (o : nat) (h : N -> N -> N) : N :=
  bigsum (length (@gl_points N 2 (o + 1))) (fun q => qw o q * h (qp o q 0) (qp o q 1))%num.

(** *** One triangle with the corners p *)
(** component c of  J^-1 v,  where J has the columns p1 - p0 and p2 - p0 *)
Definition pull (p : nat -> nat -> N) (v : nat -> N) (c : nat) : N :=
  (match c with
   | 0 => (p 2 1 - p 0 1) * v 0 - (p 2 0 - p 0 0) * v 1
   | _ => (p 1 0 - p 0 0) * v 1 - (p 1 1 - p 0 1) * v 0
   end / area2 p)%num.
(** the entries of the element matrix and vector *)
Definition stiff (o : nat) (p : nat -> nat -> N) (k l : nat) : N :=
  (nabs (area2 p) * rule o (fun x y => pull p (fun c => dshape o k c x y) 0 * pull p (fun c => dshape o l c x y) 0 +
                                       pull p (fun c => dshape o k c x y) 1 * pull p (fun c => dshape o l c x y) 1))%num.
(** the same with J transposed: the gradient, in the plane, of a function with the local gradient v *)
Definition pullT (p : nat -> nat -> N) (v : nat -> N) (c : nat) : N :=
  (match c with
   | 0 => (p 2 1 - p 0 1) * v 0 - (p 1 1 - p 0 1) * v 1
   | _ => (p 1 0 - p 0 0) * v 1 - (p 2 0 - p 0 0) * v 0
   end / area2 p)%num.
Definition stiff_exact (o : nat) (p : nat -> nat -> N) (k l : nat) : N :=
  (nabs (area2 p) * rule o (fun x y => pullT p (fun c => dshape o k c x y) 0 * pullT p (fun c => dshape o l c x y) 0 +
                                       pullT p (fun c => dshape o k c x y) 1 * pullT p (fun c => dshape o l c x y) 1))%num.
(** J commutes with its transpose *)
Definition normal_map (p : nat -> nat -> N) : Prop :=
  let a := (p 1 0 - p 0 0)%num in let b := (p 2 0 - p 0 0)%num in let c := (p 1 1 - p 0 1)%num in let d := (p 2 1 - p 0 1)%num in
  (b * b = c * c /\ a * c + b * d = a * b + c * d)%num.
(** the point of the triangle with the local coordinates x, y *)
Definition place (p : nat -> nat -> N) (x y : N) : list N :=
  map (fun k => p 0 k + x * (p 1 k - p 0 k) + y * (p 2 k - p 0 k))%num [0; 1].
Definition loadv (o : nat) (f : list N -> N) (p : nat -> nat -> N) (k : nat) : N :=
  (nabs (area2 p) * rule o (fun x y => shape o k x y * f (place p x y)))%num.
(** values of magnitude at most drop are replaced by 0 *)
Definition kept (drop x : N) : N := if nltb drop (nabs x) then x else n0.

(** *** The mesh: nodes at the positions V, elements with the node numbers D (corners first) *)
Definition node (D : list (list nat)) (e k : nat) : nat := nth k (nth e D []) 0.
(** the sum of the element matrices (vectors), entry by entry *)
Definition assembled (D : list (list nat)) (nd : nat) (m : nat -> nat -> nat -> N) (i j : nat) : N :=
  bigsum (length D) (fun e => bigsum nd (fun k => bigsum nd (fun l => if (node D e k =? i) && (node D e l =? j) then m e k l else n0))).
Definition assembledv (D : list (list nat)) (nd : nat) (v : nat -> nat -> N) (i : nat) : N :=
  bigsum (length D) (fun e => bigsum nd (fun k => if node D e k =? i then v e k else n0)).
Definition fem_a (drop : N) (o : nat) (V : list (list N)) (D : list (list nat)) : nat -> nat -> N :=
  assembled D (3 * o) (fun e k l => kept drop (stiff o (corner V D e) k l)).
Definition fem_b (drop : N) (o : nat) (f : list N -> N) (V : list (list N)) (D : list (list nat)) : nat -> N :=
  assembledv D (3 * o) (fun e k => kept drop (loadv o f (corner V D e) k)).
(** the average magnitude of the diagonal *)
Definition avg_diag (n : nat) (a : nat -> nat -> N) : N := (bigsum n (fun i => nabs (a i i)) / nofnat n)%num.
(** the system with the values g prescribed at the nodes bd *)
Definition fixed_a (bd : nat -> bool) (mid : N) (a : nat -> nat -> N) (i j : nat) : N :=
  if bd i || bd j then (if i =? j then mid else n0) else a i j.
Definition fixed_b (n : nat) (bd : nat -> bool) (mid : N) (g : nat -> N) (a : nat -> nat -> N) (b : nat -> N) (i : nat) : N :=
  if bd i then (mid * g i)%num else (b i - bigsum n (fun j => if bd j then a i j * g j else n0))%num.

(** The mesh object s has the nodes V, flagged where bd says so, and prepared elements with the DOF vertices D. *)
Record carries (V : list (list N)) (D : list (list nat)) (bd : nat -> bool) (s : mst N) : Prop := {
  ca_lists : mV s = seq 0 (length V) /\ mE s = seq 0 (length D);
  ca_vertex : forall k, k < length V -> exists v, deref (hv s) k = Ok v /\ mv_gi v = k /\ mv_pos v = nth k V [] /\ mv_bound v = bd k;
  ca_element : forall e, e < length D -> exists x s0, deref (he s) e = Ok x /\ me_dof x = map Some (nth e D []) /\
    corners s0 (corner V D e) /\ sx_prepare s0 = Ok (me_sx x)
}.
(** The nodes of order o of the mesh with the vertices P and the triangles T: for order 1 these; for order 2 also the midpoints
    of the faces, one per face. *)
Record nodes_of (o : nat) (P : list (list N)) (T : list (list nat)) (V : list (list N)) (D : list (list nat)) : Prop := {
  no_vertices : firstn (length P) V = P;
  no_count : length D = length T;
  no_first : o = 1 -> V = P /\ D = T;
  no_second : o = 2 -> forall e, e < length T -> exists a b c p q r, nth e T [] = [a; b; c] /\ nth e D [] = [a; b; c; p; q; r] /\
    (length P <= p < length V /\ length P <= q < length V /\ length P <= r < length V) /\
    nth p V [] = midpoint (nth a P []) (nth b P []) /\ nth q V [] = midpoint (nth b P []) (nth c P []) /\ nth r V [] = midpoint (nth c P []) (nth a P []);
  (* elements share a midpoint node iff they share the face *)
  no_shared : o = 2 -> forall e f k l, e < length T -> f < length T -> k < 3 -> l < 3 ->
    (node D e (3 + k) = node D f (3 + l) <-> same_set [node T e k; node T e ((k + 1) mod 3)] [node T f l; node T f ((l + 1) mod 3)])
}.
(** The vector v has the length n and the entries b. *)
Definition reads (v : list N) (n : nat) (b : nat -> N) : Prop := length v = n /\ forall i, i < n -> nth i v n0 = b i.
(** prepareMesh(o) turned s into s': nodes V with flags bd and elements with the nodes D; the old vertices keep number, position and
    flag, a midpoint is flagged iff its face belongs to one element only, and every new node belongs to an element. *)
Record discrete (o : nat) (P : list (list N)) (T : list (list nat)) (s s' : mst N) (V : list (list N)) (D : list (list nat)) (bd : nat -> bool) : Prop := {
  di_carries : carries V D bd s';
  di_nodes : nodes_of o P T V D;
  di_flags : forall k, k < length P -> boundary_flag s k (bd k);
  di_mids : o = 2 -> forall e k, e < length T -> k < 3 -> (bd (node D e (3 + k)) = true <-> outer_face T (node T e k) (node T e ((k + 1) mod 3)));
  di_len : forall e, e < length D -> length (nth e D []) = 3 * o;
  di_in : forall e k, e < length D -> k < 3 * o -> node D e k < length V;
  di_corner : forall e i k, e < length T -> i < 3 -> corner V D e i k = corner P T e i k;
  di_used : forall k, length P <= k < length V -> exists e, e < length D /\ In k (nth e D []);
  (* the elements know their vertices and the edge objects of their faces *)
  di_faces : forall e i, e < length T -> i < 3 -> exists x d ed y z, deref (he s') e = Ok x /\ me_v x = map Some (nth e T []) /\
    nth_error (me_n x) i = Some (Some d) /\ deref (hd s') d = Ok ed /\ ed_v ed = [Some y; Some z] /\
    ((y = node T e ((i + 1) mod 3) /\ z = node T e ((i + 2) mod 3)) \/ (y = node T e ((i + 2) mod 3) /\ z = node T e ((i + 1) mod 3)))
}.
(** *** After solving: X are the node values *)
(** the distance of two points *)
Definition gap (x y : list N) : N := nsqrt ((nth 0 x n0 - nth 0 y n0) * (nth 0 x n0 - nth 0 y n0) + (nth 1 x n0 - nth 1 y n0) * (nth 1 x n0 - nth 1 y n0))%num.
(** the squared difference quotient between two nodes; the face y z, seen from the opposite corner w *)
Definition steep2 (V : list (list N)) (X : nat -> N) (w y : nat) : N :=
  let s := ((X y - X w) / gap (nth y V []) (nth w V []))%num in (s * s)%num.
Definition face_part (V : list (list N)) (X : nat -> N) (w y z : nat) : N :=
  (gap (nth y V []) (nth z V []) * (steep2 V X w y + steep2 V X w z))%num.
(** the second derivatives of the order 2 functions, with respect to x twice (c = 0) and to y twice *)
Definition d2shape (k c : nat) : N :=
  (if k <? 3 then two * two * (dbary k c * dbary k c) else two * two * two * (dbary (fst (edge_of k)) c * dbary (snd (edge_of k)) c))%num.
(** the sum over the four points of the rule; at point q the second derivatives of the function q are used, multiplied with the
    values of the nodes 4 and 5 *)
Definition cell_part (f : list N -> N) (p : nat -> nat -> N) (u : nat -> N) : N :=
  (nabs (area2 p) * bigsum 4 (fun q =>
    let w c := u (4 + c)%nat * d2shape q c in qw 2 q * (pull p w 0 + pull p w 1 + f (place p (qp 2 q 0) (qp 2 q 1)))))%num.
(** the diameter *)
Definition longest (p : nat -> nat -> N) (d : N) : Prop := nleb n0 d = true /\
  (exists i j, i < 3 /\ j < 3 /\ i <> j /\ (d * d)%num = dist2 (p i) (p j)) /\ forall i j, i < 3 -> j < 3 -> nleb (dist2 (p i) (p j)) (d * d)%num = true.
Definition post_part (o : nat) (f : list N -> N) (V : list (list N)) (D : list (list nat)) (X : nat -> N) (e : nat) (d : N) : N :=
  (d * d * (if o =? 2 then cell_part f (corner V D e) (fun k => X (node D e k)) else n0) +
   dec 5 1 * bigsum 3 (fun i => face_part V X (node D e i) (node D e ((i + 1) mod 3)) (node D e ((i + 2) mod 3))))%num.
(** What handleMesh leaves behind for the node values x: the exact errors (zeros without a known solution), one estimate per
    element, the lines of the vertex file and of the element file (numbered from 1). *)
Record outputs (o : nat) (f : list N -> N) (sol : option (list N -> N)) (T : list (list nat)) (V : list (list N)) (D : list (list nat)) (x : nat -> N) (r : fem_out N) : Prop := {
  ou_exact : reads (fo_exact r) (length V) (fun i => match sol with Some u => nabs (u (nth i V []) - x i)%num | None => n0 end);
  ou_post : length (fo_post r) = length T /\ forall e, e < length T -> exists d, longest (corner V D e) d /\ nth e (fo_post r) n0 = post_part o f V D x e d;
  ou_data : fo_data r = map (fun i => (nth 0 (nth i V []) n0, nth 1 (nth i V []) n0, x i)) (seq 0 (length V));
  ou_elems : fo_elems r = map (fun e => (node T e 0 + 1, node T e 1 + 1, node T e 2 + 1)) (seq 0 (length T))
}.
(** Node i is joined to a flagged node by a chain of elements. *)
Inductive anchored (D : list (list nat)) (bd : nat -> bool) : nat -> Prop :=
| an_flag i : bd i = true -> anchored D bd i
| an_step e i j : e < length D -> In i (nth e D []) -> In j (nth e D []) -> anchored D bd j -> anchored D bd i.
(** *** Grids of e0 rows and e1 columns of square cells of width h; node (r, c) is in row r and column c *)
(** the sum of the three weights of the rule for order 1, about 1/2, as written in the tables *)
Definition kap : N := (dec 333333333333333 15 / (n1 + n1) * (n1 + n1 + n1))%num.
(** the position of a node, and whether it is on the boundary *)
Definition site (ox oy h : N) (r c : nat) : list N := [ox + h * nofnat c; oy + h * nofnat r]%num.
Definition on_frame (e0 e1 r c : nat) : bool := (r =? 0) || (r =? e0) || (c =? 0) || (c =? e1).
(** the mean of f over the midpoints of the six edges at an interior node *)
Definition mean6 (h ox oy : N) (f : list N -> N) (r c : nat) : N :=
  let x := (ox + h * nofnat c)%num in let y := (oy + h * nofnat r)%num in let d := (h / two)%num in
  ((f [x + d; y] + f [x - d; y] + f [x; y + d] + f [x; y - d] + f [x + d; y + d] + f [x - d; y - d]) / (two * (two + n1)))%num.
End FemSpec.
