(** Property C58: VTKExporter::write on triangle meshes.  VtkSpec.v reads the file back: [points_of], [types_of] and
    [cell_points] (the points of each cell, by the offsets and connectivity arrays); [describes ty s out]: the file has exactly the
    vertices of s, padded with 0, and exactly its elements, each of type ty with its DOF vertices in order. *)
From Coq Require Import String List Arith Bool ZArith QArith Lia.
From Verif Require Import Base BaseProofs Num NumInst NumEps OrdField UtilsSpec UtilsInst ExampleBase SimplexModel MeshModel MeshSpec MeshDofSpec
  VtkModel VtkSpec VtkProofs VtkResult PropMesh PropDof.
Import ListNotations.
Local Open Scope list_scope.
Local Open Scope nat_scope.
Open Scope res_scope.

(** ** C58 *)
(** A mesh after prepareMesh of order 1 (2), written without (with) VOO_IsQuadratic: VTK_TRIANGLE is 5, VTK_QUADRATIC_TRIANGLE is 22. *)
Theorem C58_mesh (N : Num) : forall (ops : list (mop N)) s order o pd cd, valid 0 ops -> ready ops s ->
  (order = 1 /\ Z.testbit o 7 = false) \/ (order = 2 /\ Z.testbit o 7 = true) ->
  element_data_ready o s -> pd <> [] ->
  returns (let* s' := m_prepareMesh order s in let* out := vtk_write o s' pd cd in Ok (s', out))
    (fun r => keeps_mesh s (fst r) /\ describes (if order =? 1 then 5 else 22) (fst r) (snd r)).
Proof. exact export_mesh. Qed.
(** The points of a quadratic cell are in the order of VTK: corners a, b, c, then the midpoints of ab, bc, ca. *)
Theorem C58_quadratic (N : Num) (HF : FieldLaws N) (HN : NatLaws N) : forall (ops : list (mop N)) s o pd cd, valid 0 ops -> ready ops s ->
  Z.testbit o 7 = true -> element_data_ready o s -> pd <> [] ->
  returns (let* s' := m_prepareMesh 2 s in let* out := vtk_write o s' pd cd in Ok (s', out))
    (fun r => forall e p, nth_error (mE (fst r)) e = Some p -> exists x a b c pa pb pc, deref (he (fst r)) p = Ok x /\ me_v x = [Some a; Some b; Some c] /\
       vertex_at (fst r) a pa /\ vertex_at (fst r) b pb /\ vertex_at (fst r) c pc /\
       cell_points (snd r) e = [pad pa; pad pb; pad pc; pad (midpoint pa pb); pad (midpoint pb pc); pad (midpoint pc pa)]).
Proof. exact (export_quadratic HF HN). Qed.
(** Any mesh, however made, whose vertices are numbered and whose elements have 3 (6) DOF vertices of the mesh. *)
Theorem C58_any (N : Num) : forall (s : mst N) o pd cd, exportable (if Z.testbit o 7 then 6 else 3) s -> element_data_ready o s -> pd <> [] ->
  returns (vtk_write o s pd cd) (fun out => describes (if Z.testbit o 7 then 22 else 5) s out).
Proof. exact export_ok. Qed.
(** Every entry of pointData and cellData appears under its name with exactly its values. *)
Theorem C58_data (N : Num) : forall d (s : mst N) o pd cd, exportable d s -> element_data_ready o s -> pd <> [] ->
  NoDup (map fst pd) -> NoDup (map fst cd) ->
  returns (vtk_write o s pd cd) (fun out =>
    (forall name v, In (name, v) pd -> vals (array (data_tag name) (before_cell_data out)) = v) /\
    (forall name v, In (name, v) cd -> vals (array (data_tag name) (in_cell_data out)) = v)).
Proof. exact export_data. Qed.
(** The label and determinant arrays, present exactly when requested: VOO_ElementDeterminant = 0x1 (bit 0), VOO_VertexBoundaryLabel = 0x8 (bit 3),
    VOO_VertexImplicitLabel = 0x10 (bit 4), VOO_IsQuadratic = 0x80 (bit 7). *)
Theorem C58_labels (N : Num) : forall d (s : mst N) o pd cd, exportable d s -> element_data_ready o s -> pd <> [] ->
  returns (vtk_write o s pd cd) (fun out =>
    ints (array boundary_tag (before_cell_data out)) = (if Z.testbit o 3 then flags mv_bound s else []) /\
    ints (array implicit_tag (before_cell_data out)) = (if Z.testbit o 4 then flags mv_impl s else []) /\
    vals (array determinant_tag (in_cell_data out)) = (if Z.testbit o 0 then determinants s else [])).
Proof. exact export_labels. Qed.
(** VOO_ElementMatrix = 0x2 (bit 1), VOO_ElementGradient = 0x4 (bit 2): one line per element with the entries of matrix() row by row, of gradient(0). *)
Theorem C58_element_arrays (N : Num) : forall d (s : mst N) o pd cd, exportable d s -> element_data_ready o s -> pd <> [] ->
  returns (vtk_write o s pd cd) (fun out =>
    records matrix_text (in_cell_data out) = (if Z.testbit o 1 then matrices s else []) /\
    records gradient_text (in_cell_data out) = (if Z.testbit o 2 then gradients s else [])).
Proof. exact export_matrices. Qed.
(** prepare() makes the element data available. *)
Theorem C58_element_data (N : Num) (HO : OrdFieldLaws N) : forall (ops : list (mop N)) s o, valid 0 ops -> (let* s := build ops in m_setupNeighbors s) = Ok s ->
  returns (m_prepare s) (fun s' => ready ops s' /\ element_data_ready o s').
Proof. exact (export_ready HO). Qed.
(** prepareMesh makes meshes exportable. *)
Theorem C58_exportable (N : Num) : forall (ops : list (mop N)) s order, valid 0 ops -> ready ops s -> order = 1 \/ order = 2 ->
  returns (m_prepareMesh order s) (exportable (3 * order)).
Proof. exact prepared_exportable. Qed.

(** The fan of C50 with a function on the vertices; points as pairs of rationals. *)
Definition shown (l : list (NumQc * NumQc * NumQc)) : list (Q * Q * Q) := map (fun p => match p with (x, y, z) => (Qcanon.this x, Qcanon.this y, Qcanon.this z) end) l.
Definition temp : list (string * list NumQc) := [("T"%string, map qz [1; 2; 3; 4]%Z)].
Definition export (order : nat) (o : Z) pd := let* s := build fan in let* s := m_setupNeighbors s in let* s := m_setupBoundaries s in let* s := m_prepare s in let* s := m_prepareMesh order s in
   vtk_write o s pd temp.
Example C58_fan : (let* out := export 1 31%Z temp in
    Ok (shown (points_of out), types_of out, map (cell_of out) [0; 1; 2], ints (array boundary_tag (before_cell_data out)), map Qcanon.this (vals (array (data_tag "T") (in_cell_data out))),
        map Qcanon.this (vals (array determinant_tag (in_cell_data out))))) =
  Ok ([(0 # 1, 0 # 1, 0 # 1); (4 # 1, 0 # 1, 0 # 1); (-2 # 1, 3 # 1, 0 # 1); (-2 # 1, -3 # 1, 0 # 1)]%Q, [5; 5; 5], [[0; 1; 2]; [0; 2; 3]; [0; 3; 1]], [0; 1; 1; 1],
      [1 # 1; 2 # 1; 3 # 1; 4 # 1]%Q, [12 # 1; 12 # 1; 12 # 1]%Q).
Proof. vm_compute. reflexivity. Qed.
Example C58_fan_quadratic : (let* out := export 2 144%Z temp in
    Ok (types_of out, map (cell_of out) [0; 1; 2], shown (cell_points out 0), ints (array implicit_tag (before_cell_data out)))) =
  Ok ([22; 22; 22], [[0; 1; 2; 4; 5; 6]; [0; 2; 3; 6; 7; 8]; [0; 3; 1; 8; 9; 4]],
      [(0 # 1, 0 # 1, 0 # 1); (4 # 1, 0 # 1, 0 # 1); (-2 # 1, 3 # 1, 0 # 1); (2 # 1, 0 # 1, 0 # 1); (1 # 1, 3 # 2, 0 # 1); (-1 # 1, 3 # 2, 0 # 1)]%Q,
      [0; 0; 0; 0; 1; 1; 1; 1; 1; 1]).
Proof. vm_compute. reflexivity. Qed.
Example C58_fan_arrays : (let* out := export 1 31%Z temp in
    Ok (map (map Qcanon.this) (records matrix_text (in_cell_data out)), map (map Qcanon.this) (records gradient_text (in_cell_data out)))) =
  Ok ([[4 # 1; -2 # 1; 0 # 1; 3 # 1]; [-2 # 1; -2 # 1; 3 # 1; -3 # 1]; [-2 # 1; 4 # 1; -3 # 1; 0 # 1]]%Q,
      [[-1 # 4; -1 # 2]; [1 # 2; 0 # 1]; [-1 # 4; 1 # 2]]%Q).
Proof. vm_compute. reflexivity. Qed.
Example C58_fan_premises : exists s, ready fan s /\ element_data_ready 31 s /\ Z.testbit 31 7 = false /\ Z.testbit 144 7 = true.
Proof.
  destruct (ran _ _ _ _ C50_fan) as (s & E). destruct (C58_element_data _ (NumQc_ord) fan s 31 C50_fan_valid E) as (s' & _ & R & D). exists s'. auto.
Qed.
(** [BUG] Without point data the name of the first entry of an empty map is read. *)
Theorem C58_no_point_data_refuted (N : Num) : forall d (s : mst N) o cd, exportable d s -> vtk_write o s [] cd = UB.
Proof.
  intros d s o cd EX. unfold vtk_write. rewrite (points_lines s d EX), (cells_lines s o d EX). reflexivity.
Qed.
(** [BUG] The gradient array announces 4 components per element but has 2. *)
Theorem C58_gradient_refuted :
  let tag : list (tok NumQc) := [Str "<DataArray Name=""ElementGradient"" type=""Float32"" NumberOfComponents="""; Int 4; Str """ format=""ascii"">"]%string in
  let size := fun l : list (tok NumQc) => match l with [Str _; Int n; Str _] => n | _ => 0 end in
  (let* out := export 1 4%Z temp in
   let ls := below ["<CellData>"%string] (lines out) in Ok (size (nth 3 ls []), map (fun l => length (vals l)) (firstn 3 (skipn 4 ls)))) = Ok (size tag, [2; 2; 2]).
Proof. vm_compute. reflexivity. Qed.
(** [BUG] Before prepareMesh the cells have no points, but the offsets promise three each; VOO_IsQuadratic with linear elements promises six. *)
Theorem C58_unprepared_refuted :
  (let* s := build fan in let* s := m_setupNeighbors s in let* out := vtk_write 0 s temp [] in Ok (connectivity_of out, offsets_of out)) = Ok ([], [3; 6; 9]) /\
  (let* out := export 1 128%Z temp in Ok (length (connectivity_of out), offsets_of out)) = Ok (9, [6; 12; 18]).
Proof. split; vm_compute; reflexivity. Qed.
(** Element data without prepare() abort. *)
Theorem C58_determinant_unprepared : (let* s := build fan in let* s := m_setupNeighbors s in vtk_write 1 s temp []) = Abort.
Proof. vm_compute. reflexivity. Qed.
(** [BUG] For K = 3 the code (if it could be instantiated) drops the second coordinate. *)
Theorem C58_three_dimensions_refuted (N : Num) : forall x y z : N, vtk_point 3 [x; y; z] = Ok [Val x; Str " "; Val n0; Str " "; Val z; Nl].
Proof. reflexivity. Qed.
