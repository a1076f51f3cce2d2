(** Model of src/lib/export/VTKExporter.inl.  The file is the sequence of items sent to the stream: literals and names,
    numbers (how operator<< formats a number is not modelled: the default precision of 6 digits loses digits),
    unsigned integers, ends of lines.  Failures of the stream are not modelled.
    Mesh<T,K> only exists for K = 2 (Simplex has static_assert(K==2)); K is kept where the code mentions it. *)
From Coq Require Import String List Arith Bool ZArith.
From Verif Require Import Base Num VectorModel DenseModel SimplexModel MeshModel.
Import ListNotations.
Local Open Scope string_scope.
Local Open Scope list_scope.
Local Open Scope nat_scope.
Open Scope res_scope.

Inductive tok (N : Num) : Type := Str (s : string) | Val (x : N) | Int (n : nat) | Nl.
Arguments Str {N} _. Arguments Val {N} _. Arguments Int {N} _. Arguments Nl {N}.

Section Vtk.
Context {N : Num}.
Notation toks := (list (tok N)).
(** for (x : l) stream << ... *)
Definition emit {A} (l : list A) (g : A -> res toks) : res toks :=
  foreach l (fun x out => let* y := g x in Ok (out ++ y)) [].
(** VTKOutputOptions, VTKExporter.h:11-20: outputOptions & (1 << b) *)
Definition option_set (o : Z) (b : Z) : bool := Z.testbit o b.
Definition ElementDeterminant : Z := 0%Z.
Definition ElementMatrix : Z := 1%Z.
Definition ElementGradient : Z := 2%Z.
Definition VertexBoundaryLabel : Z := 3%Z.
Definition VertexImplicitLabel : Z := 4%Z.
Definition IsQuadratic : Z := 7%Z.

(** VTKExporter.inl:32-34 *)
Definition vtk_point (K : nat) (pos : list N) : res toks :=
  let* x := v_at pos 0 in
  let* y := (if K =? 2 then v_at pos 1 else Ok n0) in
  let* z := (if K =? 3 then v_at pos 2 else Ok n0) in
  Ok [Val x; Str " "; Val y; Str " "; Val z; Nl].
(** Header and points, VTKExporter.inl:20-38 *)
Definition vtk_header (s : mst N) : toks :=
  [Str "<?xml version=""1.0""?>"; Nl;
   Str "<VTKFile type=""UnstructuredGrid"" version=""0.1"" byte_order=""LittleEndian"">"; Nl;
   Str "<UnstructuredGrid>"; Nl;
   Str "<Piece NumberOfPoints="""; Int (length (mV s)); Str """ NumberOfCells="""; Int (length (mE s)); Str """>"; Nl].
Definition vtk_points (K : nat) (s : mst N) : res toks :=
  let* body := emit (mV s) (fun p => let* v := deref (hv s) p in vtk_point K (mv_pos v)) in
  Ok ([Str "<Points>"; Nl; Str "<DataArray type=""Float32"" NumberOfComponents=""3"" format=""ascii"">"; Nl] ++ body ++
      [Str "</DataArray>"; Nl; Str "</Points>"; Nl]).
(** elemOff and elemType, VTKExporter.inl:51-78 *)
Definition elem_off (K : nat) (o : Z) : nat :=
  if K =? 2 then (if option_set o IsQuadratic then 6 else 3)
  else if K =? 3 then (if option_set o IsQuadratic then 10 else 4)
  else (if option_set o IsQuadratic then 3 else 2).
Definition elem_type (K : nat) (o : Z) : nat :=
  if K =? 2 then (if option_set o IsQuadratic then 22 else 5)
  else if K =? 3 then (if option_set o IsQuadratic then 24 else 10)
  else (if option_set o IsQuadratic then 21 else 3).
(** Cells, VTKExporter.inl:41-92 *)
Definition vtk_connectivity (s : mst N) : res toks :=
  let* body := emit (mE s) (fun p =>
    let* e := deref (he s) p in
    let* l := emit (me_dof e) (fun q => let* q := nn q in let* v := deref (hv s) q in Ok [Int (mv_gi v); Str " "]) in
    Ok (l ++ [Nl])) in
  Ok ([Str "<DataArray type=""Int32"" Name=""connectivity"" format=""ascii"">"; Nl] ++ body ++ [Str "</DataArray>"; Nl]).
Definition vtk_offsets (K : nat) (o : Z) (s : mst N) : res toks :=
  let* body := emit (seq 1 (length (mE s))) (fun i => Ok [Int (i * elem_off K o); Str " "]) in
  Ok ([Str "<DataArray type=""Int32"" Name=""offsets"" format=""ascii"">"; Nl] ++ body ++ [Nl] ++ [Str "</DataArray>"; Nl]).
Definition vtk_types (K : nat) (o : Z) (s : mst N) : res toks :=
  let* body := emit (seq 0 (length (mE s))) (fun _ => Ok [Int (elem_type K o); Str " "]) in
  Ok ([Str "<DataArray type=""UInt8"" Name=""types"" format=""ascii"">"; Nl] ++ body ++ [Nl] ++ [Str "</DataArray>"; Nl]).
Definition vtk_cells (K : nat) (o : Z) (s : mst N) : res toks :=
  let* c := vtk_connectivity s in
  let* f := vtk_offsets K o s in
  let* t := vtk_types K o s in
  Ok ([Str "<Cells>"; Nl] ++ c ++ f ++ t ++ [Str "</Cells>"; Nl]).
(** One entry of pointData or cellData, VTKExporter.inl:98-101, 125-128 *)
Definition vtk_data (d : string * list N) : res toks :=
  let* body := emit (seq 0 (v_size (snd d))) (fun i => let* x := v_at (snd d) i in Ok [Val x; Str " "]) in
  Ok ([Str "<DataArray Name="""; Str (fst d); Str """ type=""Float32"" format=""ascii"">"; Nl] ++ body ++ [Nl; Str "</DataArray>"; Nl]).
(** BoundaryLabel and ImplicitLabel, VTKExporter.inl:104-118 *)
Definition vtk_label (tag : string) (f : mvert N -> bool) (s : mst N) : res toks :=
  let* body := emit (mV s) (fun p => let* v := deref (hv s) p in Ok [Int (if f v then 1 else 0); Str " "]) in
  Ok ([Str tag; Nl] ++ body ++ [Nl; Str "</DataArray>"; Nl]).
(** Point data, VTKExporter.inl:94-119.  The std::map is the list of its entries in order;
    begin() of an empty map must not be dereferenced. *)
Definition vtk_pointdata (o : Z) (s : mst N) (pd : list (string * list N)) : res toks :=
  let* first := (match pd with [] => UB | d :: _ => Ok (fst d) end) in
  let* data := emit pd vtk_data in
  let* b := (if option_set o VertexBoundaryLabel then vtk_label "<DataArray Name=""BoundaryLabel"" type=""UInt8"" format=""ascii"">" mv_bound s else Ok []) in
  let* i := (if option_set o VertexImplicitLabel then vtk_label "<DataArray Name=""ImplicitLabel"" type=""UInt8"" format=""ascii"">" mv_impl s else Ok []) in
  Ok ([Str "<PointData Scalars="""; Str first; Str """>"; Nl] ++ data ++ b ++ i ++ [Str "</PointData>"; Nl]).
(** ElementDeterminant, VTKExporter.inl:131-138 *)
Definition vtk_determinants (s : mst N) : res toks :=
  let* body := emit (mE s) (fun p => let* e := deref (he s) p in let* d := sx_determinant (me_sx e) in Ok [Val d; Str " "]) in
  Ok ([Str "<DataArray Name=""ElementDeterminant"" type=""Float32"" format=""ascii"">"; Nl] ++ body ++ [Nl; Str "</DataArray>"; Nl]).
(** ElementMatrix, VTKExporter.inl:140-152 *)
Definition vtk_matrices (K : nat) (s : mst N) : res toks :=
  let* body := emit (mE s) (fun p =>
    let* e := deref (he s) p in
    let* M := sx_matrix (me_sx e) in
    let* l := d_for M (fun it out => let* x := di_get M it in Ok (out ++ [Val x; Str " "])) [] in
    Ok (l ++ [Nl])) in
  Ok ([Str "<DataArray Name=""ElementMatrix"" type=""Float32"" NumberOfComponents="""; Int (K * K); Str """ format=""ascii"">"; Nl] ++ body ++
      [Str "</DataArray>"; Nl]).
(** ElementGradient, VTKExporter.inl:154-166 *)
Definition vtk_gradients (K : nat) (s : mst N) : res toks :=
  let* body := emit (mE s) (fun p =>
    let* e := deref (he s) p in
    let* M := sx_gradient (me_sx e) 0 in
    let* l := v_iterate M (fun x out => Ok (out ++ [Val x; Str " "])) [] in
    Ok (l ++ [Nl])) in
  Ok ([Str "<DataArray Name=""ElementGradient"" type=""Float32"" NumberOfComponents="""; Int (K * K); Str """ format=""ascii"">"; Nl] ++ body ++
      [Str "</DataArray>"; Nl]).
(** Cell data, VTKExporter.inl:121-167 *)
Definition vtk_celldata (K : nat) (o : Z) (s : mst N) (cd : list (string * list N)) : res toks :=
  let* data := emit cd vtk_data in
  let* d := (if option_set o ElementDeterminant then vtk_determinants s else Ok []) in
  let* m := (if option_set o ElementMatrix then vtk_matrices K s else Ok []) in
  let* g := (if option_set o ElementGradient then vtk_gradients K s else Ok []) in
  Ok ([Str "<CellData>"; Nl] ++ data ++ d ++ m ++ g ++ [Str "</CellData>"; Nl]).
(** write, VTKExporter.inl:8-176, for K = 2 *)
Definition vtk_write (o : Z) (s : mst N) (pd cd : list (string * list N)) : res toks :=
  let* p := vtk_points 2 s in
  let* c := vtk_cells 2 o s in
  let* pdt := vtk_pointdata o s pd in
  let* cdt := vtk_celldata 2 o s cd in
  Ok (vtk_header s ++ p ++ c ++ pdt ++ cdt ++ [Str "</Piece>"; Nl; Str "</UnstructuredGrid>"; Nl; Str "</VTKFile>"; Nl; Nl]).
End Vtk.
Arguments tok : clear implicits.
