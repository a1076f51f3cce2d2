(** Reading a VTK file back: the specification for C58.  An array is the text between the line with its opening tag and the
    next line </DataArray>. *)
From Coq Require Import String List Arith Bool ZArith.
From Verif Require Import Base Num VectorModel DenseModel SimplexModel MeshModel VtkModel ObjSpec.
Import ListNotations.
Local Open Scope string_scope.
Local Open Scope list_scope.
Local Open Scope nat_scope.

Section VtkSpec.
Context {N : Num}.
Notation line := (list (tok N)).
Fixpoint lines (l : list (tok N)) : list line :=
  match l with
  | [] => [[]]
  | Nl :: r => [] :: lines r
  | t :: r => match lines r with [] => [[t]] | x :: y => (t :: x) :: y end
  end.
(** The line consists of these strings. *)
Fixpoint is_tag (tag : list string) (l : line) : bool :=
  match tag, l with
  | [], [] => true
  | a :: tag', Str b :: l' => String.eqb a b && is_tag tag' l'
  | _, _ => false
  end.
(** The lines after, and before, the first line with the given text. *)
Fixpoint below (tag : list string) (ls : list line) : list line :=
  match ls with [] => [] | l :: r => if is_tag tag l then r else below tag r end.
Fixpoint above (tag : list string) (ls : list line) : list line :=
  match ls with [] => [] | l :: r => if is_tag tag l then [] else l :: above tag r end.
(** The content of the first array with the given opening line, and the numbers in it. *)
Definition array (tag : list string) (ls : list line) : line := List.concat (above ["</DataArray>"] (below tag ls)).
Definition vals (l : line) : list N := flat_map (fun t => match t with Val x => [x] | _ => [] end) l.
Definition ints (l : line) : list nat := flat_map (fun t => match t with Int x => [x] | _ => [] end) l.
Definition in_cell_data (out : list (tok N)) : list line := below ["<CellData>"] (lines out).
Definition before_cell_data (out : list (tok N)) : list line := above ["<CellData>"] (lines out).

Definition points_tag := ["<DataArray type=""Float32"" NumberOfComponents=""3"" format=""ascii"">"].
Definition connectivity_tag := ["<DataArray type=""Int32"" Name=""connectivity"" format=""ascii"">"].
Definition offsets_tag := ["<DataArray type=""Int32"" Name=""offsets"" format=""ascii"">"].
Definition types_tag := ["<DataArray type=""UInt8"" Name=""types"" format=""ascii"">"].
Definition data_tag (name : string) := ["<DataArray Name="""; name; """ type=""Float32"" format=""ascii"">"].
Definition boundary_tag := ["<DataArray Name=""BoundaryLabel"" type=""UInt8"" format=""ascii"">"].
Definition implicit_tag := ["<DataArray Name=""ImplicitLabel"" type=""UInt8"" format=""ascii"">"].
Definition determinant_tag := ["<DataArray Name=""ElementDeterminant"" type=""Float32"" format=""ascii"">"].

(** The points, and per cell its type and its points: the entries of the connectivity array between the previous and its own offset. *)
Definition points_of (out : list (tok N)) : list (N * N * N) := triples (vals (array points_tag (lines out))).
Definition connectivity_of out : list nat := ints (array connectivity_tag (lines out)).
Definition offsets_of out : list nat := ints (array offsets_tag (lines out)).
Definition types_of out : list nat := ints (array types_tag (lines out)).
Definition cell_of out (e : nat) : list nat :=
  let start := nth e (0 :: offsets_of out) 0 in
  firstn (nth e (offsets_of out) 0 - start) (skipn start (connectivity_of out)).
Definition cell_points out (e : nat) : list (N * N * N) := map (fun k => nth k (points_of out) (n0, n0, n0)) (cell_of out e).

(** Vertices of the plane, numbered by position in the list; d DOF vertices per element, all in the list. *)
Record exportable (d : nat) (s : mst N) : Prop := {
  ex_vertices : forall k p, nth_error (mV s) k = Some p -> exists v a b, deref (hv s) p = Ok v /\ mv_gi v = k /\ mv_pos v = [a; b];
  ex_elements : forall p, In p (mE s) -> exists x, deref (he s) p = Ok x /\ length (me_dof x) = d /\
    forall q, In q (me_dof x) -> exists p, q = Some p /\ In p (mV s) }.
(** prepare() was called, if data of the elements are requested. *)
Definition element_data_ready (o : Z) (s : mst N) : Prop :=
  (option_set o ElementDeterminant || option_set o ElementMatrix || option_set o ElementGradient = true)%bool ->
  forall p, In p (mE s) -> exists x, deref (he s) p = Ok x /\ sx_made (me_sx x) /\ sx_prep (me_sx x) = true.
(** The point of the file stands for the DOF vertex q. *)
Definition stands_for (s : mst N) (q : option nat) (pt : N * N * N) : Prop :=
  exists p v a b, q = Some p /\ deref (hv s) p = Ok v /\ mv_pos v = [a; b] /\ pt = (a, b, n0).
(** The file describes the mesh. *)
Record describes (ty : nat) (s : mst N) (out : list (tok N)) : Prop := {
  de_counts : In [Str "<Piece NumberOfPoints="""; Int (length (mV s)); Str """ NumberOfCells="""; Int (length (mE s)); Str """>"] (lines out);
  de_points : length (points_of out) = length (mV s) /\
    forall k p, nth_error (mV s) k = Some p -> stands_for s (Some p) (nth k (points_of out) (n0, n0, n0));
  de_sizes : length (offsets_of out) = length (mE s) /\ length (types_of out) = length (mE s) /\
    last (offsets_of out) 0 = length (connectivity_of out);
  de_cells : forall e p, nth_error (mE s) e = Some p -> nth e (types_of out) 0 = ty /\
    exists x, deref (he s) p = Ok x /\ Forall2 (stands_for s) (me_dof x) (cell_points out e) }.
(** The flags of the vertices. *)
Definition flags (f : mvert N -> bool) (s : mst N) : list nat :=
  map (fun p => match deref (hv s) p with Ok v => if f v then 1 else 0 | _ => 0 end) (mV s).
Definition determinants (s : mst N) : list N :=
  map (fun p => match deref (he s) p with Ok x => sx_det (me_sx x) | _ => n0 end) (mE s).
(** The array whose opening line begins with the given text, line by line: the numbers of each line. *)
Fixpoint after (text : string) (ls : list line) : list line :=
  match ls with [] => [] | l :: r => if match l with Str b :: _ => String.eqb text b | _ => false end then r else after text r end.
Definition records (text : string) (ls : list line) : list (list N) := map vals (above ["</DataArray>"] (after text ls)).
Definition matrix_text := "<DataArray Name=""ElementMatrix"" type=""Float32"" NumberOfComponents=""".
Definition gradient_text := "<DataArray Name=""ElementGradient"" type=""Float32"" NumberOfComponents=""".
(** matrix() of every element, row by row, and gradient(0). *)
Definition entry (M : dmat N) (i j : nat) : N := match d_at M i j with Ok x => x | _ => n0 end.
Definition matrices (s : mst N) : list (list N) :=
  map (fun p => match (let* x := deref (he s) p in sx_matrix (me_sx x)) with
                | Ok M => [entry M 0 0; entry M 0 1; entry M 1 0; entry M 1 1] | _ => [] end) (mE s).
Definition gradients (s : mst N) : list (list N) :=
  map (fun p => match (let* x := deref (he s) p in sx_gradient (me_sx x) 0) with Ok g => g | _ => [] end) (mE s).
End VtkSpec.
