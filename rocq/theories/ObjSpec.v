(** Specification vocabulary for C60. *)
From Coq Require Import List Arith Bool.
From Verif Require Import Base Num MeshModel MeshSpec ObjModel.
Import ListNotations.

Section ObjSpec.
Context {N : Num}.
(** Consecutive triples of a list (a rest of one or two entries is dropped). *)
Fixpoint triples {A} (l : list A) : list (A * A * A) :=
  match l with a :: b :: c :: r => (a, b, c) :: triples r | _ => [] end.
Definition coord {A} (p : A * A * A) (k : nat) : A := match p with (x, y, z) => match k with 0 => x | 1 => y | _ => z end end.
(** The program that adds the vertices of the shape (coordinates xI and yI of each point), then its faces. *)
Definition obj_program (yI xI : nat) (sh : shape N) : list (mop N) :=
  map (fun p => AddVertex [coord p xI; coord p yI]) (triples (positions sh)) ++
  map (fun f => AddElement (coord f 0) (coord f 1) (coord f 2)) (triples (indices sh)).
Definition vertex_count (sh : shape N) : nat := length (triples (positions sh)).
Definition faces (sh : shape N) : list (list nat) := map (fun f => [coord f 0; coord f 1; coord f 2]) (triples (indices sh)).
Definition points2 (yI xI : nat) (sh : shape N) : list (list N) := map (fun p => [coord p xI; coord p yI]) (triples (positions sh)).
Definition in_range (sh : shape N) : Prop := forall f k, In f (faces sh) -> In k f -> k < vertex_count sh.
Definition distinct_corners (sh : shape N) : Prop := forall f, In f (faces sh) -> NoDup f.
Definition nonempty (sh : shape N) : Prop := triples (positions sh) <> [] /\ triples (indices sh) <> [].
End ObjSpec.
