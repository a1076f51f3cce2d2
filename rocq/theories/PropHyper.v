(** Property C53: HyperCube<T,2>::generate.  [holds V F T s]: the mesh s has vertices at the positions V, flagged where F
    holds, and the elements T with complete neighbourhood data (see HyperSpec.v). *)
From Coq Require Import List Arith Bool ZArith QArith Lia.
From Verif Require Import Base BaseProofs Num NumInst OrdField UtilsSpec UtilsInst ExampleBase SimplexSpec MeshModel MeshSpec
  HyperSpec HyperResult PropMesh.
Import ListNotations.
Local Open Scope nat_scope.
Open Scope res_scope.
Notation "x <=. y" := (nleb x y = true) (at level 70).
Notation "x <. y" := (nltb x y = true) (at level 70).

(** (e0+1)(e1+1) vertices, 2 e0 e1 triangles, and where the vertices are. *)
Theorem C53_generate (N : Num) (HO : OrdFieldLaws N) (HN : NatLaws N) : forall e0 e1 (s0 s1 ox oy : N), 1 <= e0 -> 1 <= e1 ->
  returns (hc_generate e0 e1 [s0; s1] [ox; oy]) (fun s => exists V F T, holds V F T s /\ length V = (e0 + 1) * (e1 + 1) /\ length T = 2 * e0 * e1 /\
    forall i j, i <= e0 -> j <= e1 -> nth (i * (e1 + 1) + j) V [] = [ox + s0 / nofnat e0 * nofnat j; oy + s1 / nofnat e1 * nofnat i]%num).
Proof. exact (hc_counts HO HN). Qed.
(** Counts below 1 throw. *)
Theorem C53_throws (N : Num) : forall e0 e1 (size offset : list N), e0 < 1 \/ e1 < 1 -> hc_generate e0 e1 size offset = Throw InvalidElementCount.
Proof. exact hc_throws. Qed.
(** The flagged vertices are exactly those of faces with a single element, which are the outer vertices of the grid. *)
Theorem C53_boundary (N : Num) (HO : OrdFieldLaws N) (HN : NatLaws N) : forall e0 e1 (s0 s1 ox oy : N) s V F T, 1 <= e0 -> 1 <= e1 ->
  hc_generate e0 e1 [s0; s1] [ox; oy] = Ok s -> holds V F T s ->
  (forall k, k < length V -> (F k <-> exists y, outer_face T k y)) /\
  (forall i j, i <= e0 -> j <= e1 -> (F (i * (e1 + 1) + j) <-> (i = 0 \/ i = e0 \/ j = 0 \/ j = e1))).
Proof. exact (hc_boundary HO HN). Qed.
(** All elements have the same area s0 s1 / (2 e0 e1), and the same (negative, for positive sizes) orientation. *)
Theorem C53_area (N : Num) (HO : OrdFieldLaws N) (HN : NatLaws N) : forall e0 e1 (s0 s1 ox oy : N) s V F T, 1 <= e0 -> 1 <= e1 ->
  hc_generate e0 e1 [s0; s1] [ox; oy] = Ok s -> holds V F T s ->
  forall e, e < length T -> area2 (corner V T e) = (- (s0 * s1 / (nofnat e0 * nofnat e1)))%num.
Proof. exact (hc_area HO HN). Qed.
(** The elements tile a rectangle: they cover it, cover nothing else, and their interiors are disjoint.
    Its width is s0 e1/e0 and its height s1 e0/e1. *)
Theorem C53_tiles (N : Num) (HO : OrdFieldLaws N) (HN : NatLaws N) : forall e0 e1 (s0 s1 ox oy : N) s V F T, 1 <= e0 -> 1 <= e1 -> n0 <. s0 -> n0 <. s1 ->
  hc_generate e0 e1 [s0; s1] [ox; oy] = Ok s -> holds V F T s ->
  (forall x, in_box ox oy (s0 * nofnat e1 / nofnat e0)%num (s1 * nofnat e0 / nofnat e1)%num x <-> exists e, e < length T /\ in_element V T e x) /\
  (forall e f x, e < length T -> f < length T -> inside_element V T e x -> inside_element V T f x -> e = f).
Proof. exact (hc_tiles HO HN). Qed.
(** With equal counts that is the requested rectangle. *)
Theorem C53_square (N : Num) (HO : OrdFieldLaws N) (HN : NatLaws N) : forall n (s0 s1 ox oy : N) s V F T, 1 <= n -> n0 <. s0 -> n0 <. s1 ->
  hc_generate n n [s0; s1] [ox; oy] = Ok s -> holds V F T s ->
  forall x, in_box ox oy s0 s1 x <-> exists e, e < length T /\ in_element V T e x.
Proof. exact (hc_square HO HN). Qed.
(** [BUG] With different counts it never is: the step in x is s0/elements[0], but there are elements[1] columns
    (HyperCube.inl:38, 41, 47, 65). *)
Theorem C53_extent_refuted (N : Num) (HO : OrdFieldLaws N) (HN : NatLaws N) : forall e0 e1 (s0 s1 ox oy : N) s V F T, 1 <= e0 -> 1 <= e1 -> e0 <> e1 -> n0 <. s0 -> n0 <. s1 ->
  hc_generate e0 e1 [s0; s1] [ox; oy] = Ok s -> holds V F T s ->
  (exists x, in_box ox oy s0 s1 x /\ ~ exists e, e < length T /\ in_element V T e x) /\ (exists x e, ~ in_box ox oy s0 s1 x /\ e < length T /\ in_element V T e x).
Proof. exact (hc_misses HO HN). Qed.

(** Two rows of one cell: positions, elements, flags (requested: the square (0,0)-(6,6)). *)
Definition shown (s : mst NumQc) : list (list QArith_base.Q) * list (list (option nat)) * list bool :=
  (map (fun p => match deref (hv s) p with Ok x => map Qcanon.this (mv_pos x) | _ => [] end) (mV s),
   map (fun e => match deref (he s) e with Ok x => me_v x | _ => [] end) (mE s), flags_of s).
Example C53_example : (let* s := hc_generate 2 1 [qz 6; qz 6] [qz 0; qz 0] in Ok (shown s)) =
  Ok ([[0; 0]; [3; 0]; [0; 6]; [3; 6]; [0; 12]; [3; 12]]%Q,
      [[Some 0; Some 2; Some 3]; [Some 0; Some 3; Some 1]; [Some 2; Some 4; Some 5]; [Some 2; Some 5; Some 3]], repeat true 6).
Proof. vm_compute. reflexivity. Qed.
Example C53_interior : (let* s := hc_generate 2 2 [qz 6; qz 6] [qz 0; qz 0] in Ok (flags_of s)) = Ok [true; true; true; true; false; true; true; true; true].
Proof. vm_compute. reflexivity. Qed.
Example C53_hypotheses : exists s V F T, hc_generate 2 1 [qz 6; qz 6] [qz 0; qz 0] = Ok s /\ holds V F T s.
Proof.
  destruct (C53_generate NumQc NumQc_ord NumQc_nat 2 1 (qz 6) (qz 6) (qz 0) (qz 0)) as (s & E & V & F & T & H & _); try lia. exists s, V, F, T. auto.
Qed.
