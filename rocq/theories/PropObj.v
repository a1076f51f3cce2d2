(** Property C60: MeshObjLoader::load.  A [shape] is what tinyobj::LoadObj returned: the coordinates of all points, three per
    point, and the point numbers of all faces, three per face; [triples] groups them (ObjSpec.v).  xI and yI are the template
    arguments selecting two of the three coordinates. *)
From Coq Require Import List Arith Bool ZArith QArith Lia.
From Verif Require Import Base BaseProofs Num NumInst NumEps ExampleBase SimplexModel MeshModel MeshSpec HyperSpec ObjModel ObjSpec ObjProofs PropMesh.
Import ListNotations.
Local Open Scope nat_scope.
Open Scope res_scope.

(** ** C60 *)
(** All indices below the number of points: the mesh is the one built by adding exactly the shape's points and faces in order. *)
Theorem C60_loads (N : Num) : forall yI xI (sh : shape N) rest, xI < 3 -> yI < 3 -> nonempty sh -> in_range sh ->
  obj_load yI xI (sh :: rest) = let* s := build (obj_program yI xI sh) in m_setupNeighbors s.
Proof. exact obj_loads. Qed.
(** LoadObjErrorException exactly when some face refers to a point that does not exist. *)
Theorem C60_rejects (N : Num) : forall yI xI (sh : shape N) rest, xI < 3 -> yI < 3 -> nonempty sh ->
  (obj_load yI xI (sh :: rest) = Throw LoadObjError <-> ~ in_range sh).
Proof. exact obj_rejects. Qed.
(** Whatever the indices, no access is out of range: the call returns all points and faces or throws. *)
Theorem C60_safe (N : Num) : forall yI xI (sh : shape N) rest, xI < 3 -> yI < 3 -> nonempty sh ->
  post (obj_load yI xI (sh :: rest)) (fun s => length (mV s) = vertex_count sh /\ length (mE s) = length (faces sh))
    (fun e => e = LoadObjError \/ e = TooManySharedFaces).
Proof. exact obj_safe. Qed.
(** Three different points in every face: vertex k is point k, element e is face e, and the neighbourhood is complete; or three
    faces have a common edge. *)
Theorem C60_mesh (N : Num) : forall yI xI (sh : shape N) rest, xI < 3 -> yI < 3 -> nonempty sh -> in_range sh -> distinct_corners sh ->
  (~ three_share_a_face (faces sh) -> returns (obj_load yI xI (sh :: rest)) (holds (points2 yI xI sh) (fun _ => False) (faces sh))) /\
  (three_share_a_face (faces sh) -> obj_load yI xI (sh :: rest) = Throw TooManySharedFaces).
Proof. exact obj_mesh. Qed.
(** [BUG] Every shape but the first is ignored, and no shape at all gives an empty mesh. *)
Theorem C60_only_first_shape (N : Num) : forall yI xI (sh : shape N) rest,
  obj_load yI xI (sh :: rest) = obj_load yI xI [sh] /\ obj_load yI xI [] = Ok (@m_new N).
Proof. intros. split; reflexivity. Qed.
(** [BUG] A shape without points or without faces aborts the program instead of giving an empty mesh or an exception. *)
Theorem C60_empty_shape_aborts (N : Num) : forall yI xI (sh : shape N) rest, ~ nonempty sh -> obj_load yI xI (sh :: rest) = Abort.
Proof.
  intros yI xI sh rest H. unfold obj_load, m_reserve, nonempty in *. rewrite <- !triples_len.
  destruct (triples (positions sh)); [reflexivity|]. destruct (triples (indices sh)); [reflexivity|]. destruct H; split; discriminate.
Qed.

(** A square of two triangles; the z coordinate is dropped. *)
Definition square : shape NumQc := mkShape (map qz [0; 0; 7; 1; 0; 7; 1; 1; 7; 0; 1; 7]%Z) [0; 1; 2; 0; 2; 3].
Example C60_square_premises : nonempty square /\ in_range square /\ distinct_corners square /\ ~ three_share_a_face (faces square).
Proof.
  split; [split; discriminate|]. split; [|split].
  - intros f k [<-|[<-|[]]] Hk; cbn in Hk |- *; lia.
  - intros f [<-|[<-|[]]]; cbn; repeat constructor; cbn; lia.
  - intros (x & y & e & f & g & _ & A & B & C & (E & _) & (F & _) & (G & _)). cbn in E, F, G. lia.
Qed.
Example C60_square : (let* s := obj_load 1 0 [square] in
   let* ps := foreach (mV s) (fun p l => let* v := deref (hv s) p in Ok (l ++ [map (fun a : NumQc => Qcanon.this a) (mv_pos v)])) [] in Ok (ps, edges_of s)) =
  Ok ([[0 # 1; 0 # 1]; [1 # 1; 0 # 1]; [1 # 1; 1 # 1]; [0 # 1; 1 # 1]]%Q,
      [([Some 1; Some 2], Some 0, None); ([Some 0; Some 2], Some 0, Some 1); ([Some 0; Some 1], Some 0, None);
       ([Some 2; Some 3], Some 1, None); ([Some 0; Some 3], Some 1, None)]).
Proof. vm_compute. reflexivity. Qed.
Example C60_square_bad : obj_load 1 0 [mkShape (positions square) [0; 1; 2; 0; 2; 4]] = Throw LoadObjError.
Proof. vm_compute. reflexivity. Qed.
(** [BUG] A face with a repeated point is accepted: the resulting element has two equal vertices. *)
Theorem C60_degenerate_accepted :
  (let* s := obj_load 1 0 [mkShape (positions square) [0; 0; 2]] in let* x := deref (he s) 0 in Ok (me_v x)) = Ok [Some 0; Some 0; Some 2].
Proof. vm_compute. reflexivity. Qed.
