(** Model of src/lib/mesh/Mesh.{h,inl}, of HyperCube.inl and of PolyShapePolicy::prepareMesh
    (src/lib/sf/PolyShapeFunction.inl:364-441), for K = 2: Simplex<T,K>, a member of MeshElement, has
    static_assert(K==2).
    Memory: three pools of heap objects; a pointer is an index, nullptr is None, a deleted object is None in
    the pool; using it is undefined behaviour.  A call that throws yields [Throw] without the intermediate state. *)
From Coq Require Import List Arith Bool.
From Verif Require Import Base Num VectorModel DenseModel SimplexModel.
Import ListNotations.
Open Scope res_scope.

(** MeshVertex, Mesh.h:36-47; Flags has the two bits MVF_StrongBoundary and MVF_Implicit (Mesh.h:30-34) *)
Record mvert (N : Num) : Type := mkMV {
  mv_bound : bool; mv_impl : bool; mv_gi : nat; mv_pos : list N; mv_el : list nat }.
Arguments mkMV {N} _ _ _ _ _.
Arguments mv_bound {N} _. Arguments mv_impl {N} _. Arguments mv_gi {N} _. Arguments mv_pos {N} _. Arguments mv_el {N} _.
(** MeshElement, Mesh.h:17-28 *)
Record melem (N : Num) : Type := mkME {
  me_sx : simplex N; me_v : list (option nat); me_n : list (option nat); me_dof : list (option nat) }.
Arguments mkME {N} _ _ _ _.
Arguments me_sx {N} _. Arguments me_v {N} _. Arguments me_n {N} _. Arguments me_dof {N} _.
(** MeshEdge, Mesh.h:49-59 *)
Record medge : Type := mkED { ed_v : list (option nat); ed_e0 : option nat; ed_e1 : option nat; ed_dof : list (option nat) }.
(** The pools and the lists of PrivateData, Mesh.h:106-112 *)
Record mst (N : Num) : Type := mkM {
  hv : list (option (mvert N)); he : list (option (melem N)); hd : list (option medge);
  mV : list nat; mE : list nat; mD : list nat }.
Arguments mkM {N} _ _ _ _ _ _.
Arguments hv {N} _. Arguments he {N} _. Arguments hd {N} _. Arguments mV {N} _. Arguments mE {N} _. Arguments mD {N} _.

(** Using the object behind a pointer. *)
Definition deref {A} (h : list (option A)) (p : nat) : res A :=
  match nth_error h p with Some (Some a) => Ok a | _ => UB end.
(** Overwriting (part of) the object behind a pointer. *)
Definition store {A} (h : list (option A)) (p : nat) (a : A) : res (list (option A)) :=
  let* _ := deref h p in Ok (upd h p (Some a)).
(** delete p *)
Definition free {A} (h : list (option A)) (p : nat) : res (list (option A)) :=
  let* _ := deref h p in Ok (upd h p None).
(** p->... for a pointer that may be nullptr *)
Definition nn {A} (p : option A) : res A := match p with Some a => Ok a | None => UB end.
(** comparison of pointers *)
Definition peqb (p q : option nat) : bool :=
  match p, q with Some a, Some b => a =? b | None, None => true | _, _ => false end.

Section MeshModel.
Context {N : Num}.
Notation mst := (mst N).
Definition set_hv (s : mst) h := mkM h (he s) (hd s) (mV s) (mE s) (mD s).
Definition set_he (s : mst) h := mkM (hv s) h (hd s) (mV s) (mE s) (mD s).

(** Mesh(), Mesh.inl:41-46 *)
Definition m_new : mst := mkM [] [] [] [] [] [].
(** new MeshVertex(pos), Mesh.inl:19-27 *)
Definition mk_vertex (pos : list N) : mvert N := mkMV false false 0 pos [].
Definition new_vertex (s : mst) (pos : list N) : mst * nat :=
  (set_hv s (hv s ++ [Some (mk_vertex pos)]), length (hv s)).
(** new MeshElement(), Mesh.inl:7-16, followed by Vertices[i] = vs[i] *)
Definition mk_element (vs : list (option nat)) : melem N := mkME sx_new vs [None; None; None] [].
Definition new_element (s : mst) (vs : list (option nat)) : mst * nat :=
  (set_he s (he s ++ [Some (mk_element vs)]), length (he s)).
(** p->Flags |= ... *)
Definition or_flags (s : mst) (p : nat) (b i : bool) : res mst :=
  let* v := deref (hv s) p in
  let* h := store (hv s) p (mkMV (mv_bound v || b) (mv_impl v || i) (mv_gi v) (mv_pos v) (mv_el v)) in
  Ok (set_hv s h).
(** v->Elements.push_back(e) *)
Definition push_el (h : list (option (mvert N))) (p e : nat) : res (list (option (mvert N))) :=
  let* v := deref h p in
  store h p (mkMV (mv_bound v) (mv_impl v) (mv_gi v) (mv_pos v) (mv_el v ++ [e])).

(** clear, Mesh.inl:117-127.  Edges is not cleared. *)
Definition m_clear (s : mst) : res mst :=
  let* h := foreach (mV s) (fun p h => free h p) (hv s) in
  let* g := foreach (mE s) (fun p h => free h p) (he s) in
  Ok (mkM h g (hd s) [] [] (mD s)).
(** addVertex, Mesh.inl:136-142 *)
Definition m_addVertex (s : mst) (p : option nat) : res mst :=
  match p with
  | None => Abort
  | Some p =>
    let* v := deref (hv s) p in
    let* h := store (hv s) p (mkMV (mv_bound v) (mv_impl v) (length (mV s)) (mv_pos v) (mv_el v)) in
    Ok (mkM h (he s) (hd s) (mV s ++ [p]) (mE s) (mD s))
  end.
(** vertex / element / edge, Mesh.inl:144-148, 183-187, 201-205: unchecked vector access *)
Definition m_vertex (s : mst) (i : nat) : res nat := vget (mV s) i.
Definition m_element (s : mst) (i : nat) : res nat := vget (mE s) i.
Definition m_edge (s : mst) (i : nat) : res nat := vget (mD s) i.
(** addElement, Mesh.inl:169-181 *)
Definition m_addElement (s : mst) (p : option nat) : res mst :=
  match p with
  | None => Abort
  | Some p =>
    let s := mkM (hv s) (he s) (hd s) (mV s) (mE s ++ [p]) (mD s) in
    for_ 0 3 (fun i s =>
      let* e := deref (he s) p in
      let* q := vget (me_v e) i in
      let* q := nn q in
      let* v := deref (hv s) q in
      let* x := sx_put (me_sx e) i (mv_pos v) in
      let* g := store (he s) p (mkME x (me_v e) (me_n e) (me_dof e)) in
      let* h := push_el (hv s) q p in
      Ok (mkM h g (hd s) (mV s) (mE s) (mD s))) s
  end.

(** setupNeighbors: the vertices of the face opposite to i, Mesh.inl:225-234 *)
Definition sn_shared (vs : list (option nat)) (i : nat) : res (list (option nat)) :=
  for_ 0 3 (fun j sh => if i =? j then Ok sh else let* v := vget vs j in Ok (sh ++ [v])) [].
Definition in_shared (sh : list (option nat)) (v : option nat) : bool := existsb (fun x => peqb x v) sh.
(** matches, Mesh.inl:259-270 *)
Definition sn_matches (sh vs : list (option nat)) : nat := length (filter (in_shared sh) vs).
(** The search for the other element, Mesh.inl:250-280.  [s]: the element S; the state is edge->Elements[1]. *)
Definition sn_find (s : mst) (p : nat) (sh : list (option nat)) : res (option nat) :=
  for_ 0 2 (fun j e1 =>
    let* q := vget sh j in
    let* q := nn q in
    let* v := deref (hv s) q in
    foreach (mv_el v) (fun oe e1 =>
      if oe =? p then Ok e1
      else
        let* o := deref (he s) oe in
        if sn_matches sh (me_v o) =? 2 then
          match e1 with
          | Some f => if negb (f =? oe) then Throw TooManySharedFaces else Ok (Some oe)
          | None => Ok (Some oe)
          end
        else Ok e1) e1) None.
(** The position of the vertex not in the face, Mesh.inl:283-305 (first such position; none: nothing is set) *)
Fixpoint sn_opposite (sh vs : list (option nat)) (j : nat) : option nat :=
  match vs with
  | [] => None
  | v :: vs' => if in_shared sh v then sn_opposite sh vs' (S j) else Some j
  end.
Definition set_neighbor (h : list (option (melem N))) (p i d : nat) : res (list (option (melem N))) :=
  let* e := deref h p in
  let* n := vset (me_n e) i (Some d) in
  store h p (mkME (me_sx e) (me_v e) n (me_dof e)).
(** One face of one element, Mesh.inl:220-306.  The new edge is written once, with both elements: no code
    in between reads it. *)
Definition sn_face (p i : nat) (s : mst) : res mst :=
  let* e := deref (he s) p in
  let* n := vget (me_n e) i in
  match n with
  | Some _ => Ok s
  | None =>
    let* sh := sn_shared (me_v e) i in
    if negb (length sh =? 2) then Throw MalformedElementNeighborConnection
    else
      let d := length (hd s) in
      let* g := set_neighbor (he s) p i d in
      let s := set_he s g in
      let* e1 := sn_find s p sh in
      let* g := (match e1 with
                 | None => Ok (he s)
                 | Some f =>
                   let* o := deref (he s) f in
                   match sn_opposite sh (me_v o) 0 with
                   | None => Ok (he s)
                   | Some j => set_neighbor (he s) f j d
                   end
                 end) in
      Ok (mkM (hv s) g (hd s ++ [Some (mkED sh (Some p) e1 [])]) (mV s) (mE s) (mD s ++ [d]))
  end.
(** setupNeighbors, Mesh.inl:213-308 *)
Definition m_setupNeighbors (s : mst) : res mst :=
  foreach (mE s) (fun p s => for_ 0 3 (fun i s => sn_face p i s) s) s.

(** setupBoundaries, Mesh.inl:390-404 *)
Definition m_setupBoundaries (s : mst) : res mst :=
  foreach (mD s) (fun d s =>
    let* e := deref (hd s) d in
    match ed_e0 e, ed_e1 e with
    | Some _, Some _ => Ok s
    | _, _ => for_ 0 2 (fun i s =>
        let* v := vget (ed_v e) i in
        match v with
        | None => Abort
        | Some v => or_flags s v true false
        end) s
    end) s.

(** prepare, Mesh.inl:310-315 *)
Definition m_prepare (s : mst) : res mst :=
  foreach (mE s) (fun p s =>
    let* e := deref (he s) p in
    let* x := sx_prepare (me_sx e) in
    let* g := store (he s) p (mkME x (me_v e) (me_n e) (me_dof e)) in
    Ok (set_he s g)) s.

(** validate, Mesh.inl:317-388 *)
Definition vl_vertex (s : mst) (p id : nat) : res unit :=
  let* v := deref (hv s) p in
  if negb (mv_gi v =? id) then Throw InvalidVertexIndex
  else if (length (mv_el v) =? 0) then Throw IsolatedVertex
  else foreach (mv_el v) (fun e _ =>
    let* e := deref (he s) e in
    let found := if (length (me_dof e) =? 0) then existsb (fun x => peqb x (Some p)) (me_v e)
                 else existsb (fun x => peqb x (Some p)) (me_dof e) in
    if negb found then Throw MalformedVertexElementConnection else Ok tt) tt.
Definition vl_element (s : mst) (p : nat) : res unit :=
  let* e := deref (he s) p in
  let* _ := for_ 0 3 (fun i _ =>
    let* q := vget (me_v e) i in
    match q with
    | None => Throw IncompleteElement
    | Some q =>
      let* a := sx_get (me_sx e) i in
      let* v := deref (hv s) q in
      let* d := v_sub a (mv_pos v) in
      let* m := v_magSqr d in
      if nltb neps (nabs m) then Throw IncompleteElement else Ok tt
    end) tt in
  let* vol := sx_volume (me_sx e) in
  if nleb (nabs vol) neps then Throw ZeroVolumeSimplex
  else for_ 0 3 (fun i _ =>
    let* n := vget (me_n e) i in
    match n with None => Throw MalformedElementNeighborConnection | Some _ => Ok tt end) tt.
Definition m_validate (s : mst) : res unit :=
  let* _ := foreach (mV s) (fun p id => let* _ := vl_vertex s p id in Ok (S id)) 0 in
  foreach (mE s) (fun p _ => vl_element s p) tt.

(** prepareMesh, PolyShapeFunction.inl:371-385: all vertices become DOF vertices *)
Definition pm_first (s : mst) : res mst :=
  foreach (mE s) (fun p s =>
    let* e := deref (he s) p in
    let* g := store (he s) p (mkME (me_sx e) (me_v e) (me_n e) (me_dof e ++ me_v e)) in
    let s := set_he s g in
    for_ 0 3 (fun i s =>
      let* n := vget (me_n e) i in
      let* d := nn n in
      let* ed := deref (hd s) d in
      if negb (length (ed_dof ed) =? 0) then Ok s
      else
        let* h := store (hd s) d (mkED (ed_v ed) (ed_e0 ed) (ed_e1 ed) (ed_dof ed ++ ed_v ed)) in
        Ok (mkM (hv s) (he s) h (mV s) (mE s) (mD s))) s) s.
(** element->DOFVertices.push_back(v) *)
Definition push_dof (h : list (option (melem N))) (p : nat) (v : option nat) : res (list (option (melem N))) :=
  let* e := deref h p in
  store h p (mkME (me_sx e) (me_v e) (me_n e) (me_dof e ++ [v])).
(** handleEdge, PolyShapeFunction.inl:407-432 *)
Definition pm_edge (i p : nat) (s : mst) : res mst :=
  let* e := deref (he s) p in
  let* n := vget (me_n e) i in
  let* d := nn n in
  let* ed := deref (hd s) d in
  if length (ed_dof ed) =? 3 then
    let back := last (ed_dof ed) None in
    let* q := nn back in
    let* h := push_el (hv s) q p in
    let* g := push_dof (he s) p back in
    Ok (mkM h g (hd s) (mV s) (mE s) (mD s))
  else
    let* a := vget (ed_v ed) 0 in let* a := nn a in let* a := deref (hv s) a in
    let* b := vget (ed_v ed) 1 in let* b := nn b in let* b := deref (hv s) b in
    let* x := v_add (mv_pos a) (mv_pos b) in
    let* x2 := v_divs x (nofnat 2) in
    let '(s, v2) := new_vertex s x2 in
    let* s := or_flags s v2 false true in
    let* s := (match ed_e0 ed, ed_e1 ed with
               | Some _, Some _ => Ok s
               | _, _ => or_flags s v2 true false
               end) in
    let* s := m_addVertex s (Some v2) in
    let* h := push_el (hv s) v2 p in
    let* g := push_dof (he s) p (Some v2) in
    let* k := store (hd s) d (mkED (ed_v ed) (ed_e0 ed) (ed_e1 ed) (ed_dof ed ++ [Some v2])) in
    Ok (mkM h g k (mV s) (mE s) (mD s)).
(** prepareMesh for Order 1 and 2, PolyShapeFunction.inl:364-441 *)
Definition m_prepareMesh (order : nat) (s : mst) : res mst :=
  let* s := pm_first s in
  if order =? 2 then
    foreach (mE s) (fun p s =>
      let* s := pm_edge 2 p s in
      let* s := pm_edge 0 p s in
      pm_edge 1 p s) s
  else Ok s.

(** HyperCube<T,2>::generate, HyperCube.inl:18-100.  row: lastRowVertices; Dimension is unsigned.
    reserveVertices/reserveElements only reserve memory (their assertion count > 0 holds here). *)
Definition hc_ex (size : list N) (e0 : nat) : res (list N) :=
  let* ex := v_fill (v_new 2) n0 in let* s0 := v_at size 0 in v_set ex 0 (s0 / nofnat e0)%num.
Definition hc_ey (size : list N) (e1 : nat) : res (list N) :=
  let* ey := v_fill (v_new 2) n0 in let* s1 := v_at size 1 in v_set ey 1 (s1 / nofnat e1)%num.
Definition hc_add (s : mst) (pos : list N) : res (mst * nat) :=
  let '(s, p) := new_vertex s pos in
  let* s := m_addVertex s (Some p) in Ok (s, p).
Definition hc_tri (s : mst) (a b c : nat) : res mst :=
  let '(s, p) := new_element s [Some a; Some b; Some c] in m_addElement s (Some p).
(** first row, HyperCube.inl:47-54 *)
Definition hc_first (ex offset : list N) (e1 : nat) (s : mst) : res (mst * list nat) :=
  for_ 0 (e1 + 1) (fun j st =>
    let '(s, row) := st in
    let* x := v_scale ex (nofnat j) in
    let* x := v_add offset x in
    let '(s, p) := new_vertex s x in
    let* s := or_flags s p true false in
    let* s := m_addVertex s (Some p) in
    let* row := vset row j p in Ok (s, row)) (s, repeat 0 (e1 + 1)).
(** one row, HyperCube.inl:57-90 *)
Definition hc_row (ex ey offset : list N) (e1 i : nat) (st : mst * list nat) : res (mst * list nat) :=
  let '(s, row) := st in
  let* py := v_scale ey (nofnat i) in
  let* x := v_add offset py in
  let '(s, first) := new_vertex s x in
  let* s := or_flags s first true false in
  let* s := m_addVertex s (Some first) in
  let* r := for_ 1 (e1 + 1) (fun j st =>
    let '(s, row, lastv) := st in
    let* x := v_scale ex (nofnat j) in
    let* x := v_add offset x in
    let* x := v_add x py in
    let* sv := hc_add s x in
    let '(s, v) := sv in
    let* a := vget row (j - 1) in
    let* s := hc_tri s a lastv v in
    let* b := vget row j in
    let* s := hc_tri s a v b in
    let* row := vset row (j - 1) lastv in
    Ok (s, row, v)) (s, row, first) in
  let '(s, row, lastv) := r in
  let* s := or_flags s lastv true false in
  let* row := vset row e1 lastv in
  Ok (s, row).
Definition hc_generate (e0 e1 : nat) (size offset : list N) : res mst :=
  if (e0 <? 1) || (e1 <? 1) then Throw InvalidElementCount
  else
    let* ex := hc_ex size e0 in
    let* ey := hc_ey size e1 in
    let* st := hc_first ex offset e1 m_new in
    let* st := for_ 1 (e0 + 1) (fun i st => hc_row ex ey offset e1 i st) st in
    let '(s, row) := st in
    let* s := for_ 0 (e1 + 1) (fun j s => let* p := vget row j in or_flags s p true false) s in
    m_setupNeighbors s.
End MeshModel.
