# Formal model of PearCoding/NumericSim in Rocq (Coq 8.16.1)

This file says what is modelled, how each property is proved, and what has to be trusted. Sections 4 and 5 are
generated by `tools/gen_design.py` from `properties.jsonl`, `tools/notes.json`, the sources and Print Assumptions.

## 1. How the model is built

* **One Gallina function per C++ function**, each with a comment citing file and lines. All functions are total; what
  the C++ program does besides returning is an explicit outcome (`Base.v`, type `res`): `Ok v`, `Throw e` (C++ exception
  `e`), `Abort` (a failed `NS_ASSERT`, which is active by default, also in release: nsConfig.h:61-79), `UB` (undefined
  behaviour: out-of-range `std::vector` access, null/dangling pointer, an iterator moved before the beginning, use of an
  uninitialised variable), `Wrap` (an unsigned subtraction below zero whose wrapped value the model does not follow),
  `Hang` (fuel exhausted: the model's stand-in for non-termination). A theorem saying that a call returns `Ok` therefore
  also says: no abort, no UB, no wrap, and it terminates.
* **Loops** are `for_`/`for_n`/`foreach` (counting loops) or fuelled `while_` (iterator loops and solvers; theorems show
  that the fuel stated in the model is never exhausted, or that no fuel is enough).
* **Numbers.** Code is modelled over a record `Num` of operations *without laws* (`Num.v`), which includes square root,
  absolute value, comparisons, the conversions used by the code, `numeric_limits` constants and conjugation. Instances:
  `NumQc` (exact rationals), `NumR` (stdlib reals, with sqrt), `NumF64` (IEEE binary64 through `Coq.Floats.SpecFloat`,
  pure Gallina), `NumC` (complex numbers over an ordered field), `with_eps` (any instance with another epsilon).
  Structural theorems (storage, iteration, bounds, control flow) assume nothing, or only `0 == 0`, and hold for IEEE
  doubles. Algebraic theorems assume `FieldLaws N` / `OrdFieldLaws N` as premises (predicates, not axioms; instances
  for `NumQc`, `NumR` are proved): *exact arithmetic; rounding is not modelled there*.
* **Indices.** `size_t` is `nat`; sizes are bounded by memory, so sums/products of in-range indices do not wrap; where
  wrap matters (`binom`, `factorial`, `tril`/`triu`, `erase`, inverse Hilbert matrix, the file loader) it is modelled
  explicitly (`Z` modulo 2^64, or the `Wrap` outcome).
* **References/aliasing.** Mutating member functions return the new object; where two C++ references may alias, a
  separate aliased version is modelled (e.g. `A -= A`, `v *= v[0]`, `A *= *it`, `permutate(m, p, m)`).
* **Pointers.** Mesh data live in three pools (`list (option _)`, freed objects are `None`); handles (`Mesh` objects
  sharing data through `shared_ptr`-like counts) are a separate state machine on a pool of data blocks.
* **Matrix interface.** Code that is a template over the matrix type is modelled over a record `MatI` of operations and
  instantiated with the models of `DenseMatrix`/`FixedMatrix` and `SparseMatrix`; theorems quantify over
  `library_matrix N I` or over the laws that both instances are proved to satisfy.

## 2. Files

`rocq/theories/`: `XxxModel.v` hold the model (definitions only), `XxxSpec.v` small specification vocabularies
independent of the model's helpers, `XxxProofs.v` (and `XxxResult.v` etc.) lemmas, `PropXxx.v` the property theorems,
closed by `exact`, each with an `Example` showing that a concrete non-trivial case meets its hypotheses.
Theorems named `..._refuted` prove that the C++ as written violates the expectation (comments marked `[BUG]`);
`..._partial` prove part of a property. The claim is "proved" in MANIFEST.json when the statement with its quantifier as
written in properties.jsonl is proved in full; `_refuted` theorems beside it then describe what happens outside.

| Area | Source | Model | Properties |
|---|---|---|---|
| Outcomes, loops, numbers | - | Base, Num, NumInst, NumEps, NumC, OrdField | - |
| Sparse matrices | SparseMatrix.h/.inl | SparseModel | C01-C16 |
| Vectors, sets | Vector.inl, CountableSet.inl | VectorModel | C22-C27, C62 |
| Dense, fixed matrices | BaseMatrix.inl, DenseMatrix.inl, FixedMatrix.inl | DenseModel | C16-C21, C63-C65 |
| Interface | (templates over M) | MatI, MatOps | - |
| Utilities | Utils.h | UtilsModel | C61 |
| Constructors, checks, conversion | MatrixConstructor.inl, MatrixCheck.inl, MatrixConverter.inl | ConstructModel | C28-C32 |
| Orderings | MatrixOrder.inl | OrderModel | C33-C35 |
| Factorizations | LU.inl, MatrixOperations.inl | LUModel | C36-C42 |
| Iterative solvers | CG.inl, Iterative.inl | IterModel | C43-C46 |
| Simplices, normals | Simplex.inl, Normal.h | SimplexModel | C47-C49 |
| Meshes | Mesh.h/.inl | MeshModel, MeshHandle | C50-C52, C66 |
| Hypercube meshes | HyperCube.inl | MeshModel | C53 |
| Shape functions, DOF numbering | PolyShapeFunction.inl | ShapeModel, MeshModel | C54-C56 |
| Quadrature | GaussLegendreQuadratureFactory.inl, Quadrature.inl | QuadModel | C57 |
| VTK export | VTKExporter.inl | VtkModel | C58 |
| Triangle files | MeshTriangleLoader.inl | TriModel | C59 |
| OBJ files | MeshObjLoader.inl | ObjModel | C60 |
| Example programs | examples/poisson/fdm.cpp, examples/heat/main.cpp | GridModel | C67, C68 |
| Entry norms | MatrixOperations.inl:150-196 | LUModel | C69 |
| Stream output | OutputStream.h | StreamModel | C70 |
| Finite element example | examples/poisson/fem.cpp:75-389 | FemModel | C71 |
| Vector, matrix and solve_lu, doolittle on IEEE doubles | Vector.inl, DenseMatrix.inl, SparseMatrix.inl, LU.inl | NumInst (NumF64) with the models above, FloatSpec, FloatLUSpec | C72-C75 |
| Accuracy of the finite difference programs; point counts | examples/poisson/fdm.cpp, examples/heat/main.cpp | GridModel (grid_count), AccuracySpec | C76, C77 |
| Quadrature error | quadrature/GaussLegendreQuadratureFactory.inl | QuadModel, AccuracySpec (derivatives) | C78 |
| Accuracy of the finite element program | examples/poisson/fem.cpp, mesh/HyperCube.inl | FemModel, FemSpec (mean6), AccuracySpec (bent) | C79 |
| Iterative solvers in double arithmetic | Iterative.inl | IterModel at NumF64, FloatIterSpec | C80 |
| Poisson program in double arithmetic | examples/poisson/fdm.cpp | GridModel at NumF64, GridFloatSpec | C81 |
| Heat program in double arithmetic | examples/heat/main.cpp | GridModel at NumF64, GridFloatSpec | C82 |
| Mesh::setVertex/setElement | src/lib/mesh/Mesh.inl | MeshSet | C83 |
| Mutable iterators | src/lib/matrix/BaseMatrix.inl, SparseMatrix.inl | IterWrite | C84 |
| ILU(0) of M-matrices | src/lib/LU.inl | ILUStable | C85 |
| Cuthill-McKee rule | src/lib/matrix/MatrixOrder.inl | OrderModel, OrderSpec | C86 |
| determinant on doubles | src/lib/matrix/MatrixOperations.inl, src/lib/LU.inl | FloatGrowth, FloatDetSpec, FloatDet | C87 |
| solving and inverse on doubles | src/lib/matrix/MatrixOperations.inl, src/lib/LU.inl | FloatInv | C88 |
| cholesky on doubles | src/lib/LU.inl | FloatCholSpec, FloatChol | C89 |
| success of cholesky | src/lib/LU.inl | FloatCholSafe | C90 |
| success of LU, determinant, solving, inverse | src/lib/LU.inl, src/lib/matrix/MatrixOperations.inl | FloatLUSafeSpec, FloatLUSafe | C91 |
| quadrature on doubles | quadrature/*.inl | FloatQuad | C92 |
| Iterative on doubles: convergence | Iterative.inl | FloatConv | C93 |
| Simplex on doubles | Simplex.inl | FloatSimplex | C94 |

`tools/coverage.py` lists how many code lines of each source file are cited by a definition of the model (every .inl
file almost completely; the rest are declarations, post-increment and const forwarding overloads, and what follows).

## 3. Not modelled

* Rounding in theorems that assume field laws; exceptions of memory exhaustion (`bad_alloc`), with the exception of
  `length_error` in the file loader; threads (the code base has none).
* `Exceptions.h` texts; number formatting (6 digits) and stream failure
  in VTKExporter; XML escaping of data names (the code does none).
* `tiny_obj_loader.h` (third party): C60 starts from the shapes it returns; the float -> T cast.
* `strtod` inside the Triangle loader: a parameter `conv`; the lexing by `num_get`, `tellg`, `getline` is modelled.
* `Simplex`, `Mesh`, `prepareMesh` for K <> 2 (Mesh<T,3> cannot be instantiated; the K=1 branch of prepareMesh is not
  modelled); `HyperCube<T,K>::generate` for K <> 2 (returns an empty mesh). Shape functions are modelled for every (K, order).
* `FixedMatrix::conjugate/adjugate` (use an undeclared function, cannot be instantiated); post-increment and c-versions
  of iterator accessors (forward to the modelled ones); vector capacity.
* Tests (`tests/`) and the command-line parts of the examples.
* Quadrature constants are read as exact decimals.

## 4. Properties

**C01 Sparse matrix reads return the last write** (proved). Modelled and proved: CRS storage (values, columns, row pointers, shared zero) and the three iterators; representation invariant, abstraction to functions position->value, induction over histories. All histories of set/linear_set, from a new matrix and from any constructed one; out-of-range accesses abort. Writing -0.0 reads back +0.0 (norm0). Theorems: `C01_sparse_history`, `C01_sparse_history_any_start`, `C01_sparse_every_built_matrix_reads`, `C01_sparse_out_of_range`, `C01_sparse_has_val`.

**C02 Sparse matrix counts are exact** (proved). Modelled and proved: CRS storage (values, columns, row pointers, shared zero) and the three iterators; representation invariant, abstraction to functions position->value, induction over histories. Counts are exact after every history of writes and for every matrix whose stored entries are nonzero. Outside the statement: scaling that underflows stores zeros (refuted theorem for doubles). Theorems: `C02_sparse_counts`, `C02_sparse_nan_inf`, `C02_counts_after_underflow_refuted`.

**C03 Whole-matrix sparse iteration is complete, ordered and terminates** (proved). Modelled and proved: CRS storage (values, columns, row pointers, shared zero) and the three iterators; representation invariant, abstraction to functions position->value, induction over histories. Exactly the nonzero entries, row-major, once each; for any loop body. Theorems: `C03_sparse_iteration`, `C03_sparse_for_loop`.

**C04 Row and column sparse iteration** (partial). Modelled and proved: CRS storage (values, columns, row pointers, shared zero) and the three iterators; representation invariant, abstraction to functions position->value, induction over histories. Rows fully. Columns: complete case analysis; an all-zero column of a non-empty matrix aborts (refuted). Theorems: `C04_sparse_row_iteration`, `C04_sparse_column_iteration_partial`, `C04_sparse_empty_column_aborts`, `C04_sparse_column_iteration_refuted`.

**C05 Sparse addition and subtraction are entrywise** (partial). Modelled and proved: operators, products, constructors and aggregates on the CRS model; simulation against the entrywise specification, refutations by computed witnesses. + - += -= on distinct objects fully; A += A fully; A -= A refuted (does not give 0). Theorems: `C05_sparse_add`, `C05_sparse_sub`, `C05_sparse_add_self`, `C05_sparse_sub_self_refuted`.

**C06 Sparse elementwise product is entrywise** (partial). Modelled and proved: operators, products, constructors and aggregates on the CRS model; simulation against the entrywise specification, refutations by computed witnesses. Correct under the stated guard on erased entries (followed by an entry of A in the row, or in the last row with entries, or preceded by a kept entry with a non-empty next row); outside it wrong values / wrapped indices / unreadable matrix (refuted). Theorems: `C06_sparse_hadamard_partial`, `C06_sparse_hadamard_general_partial`, `C06_sparse_hadamard_wrong_value_refuted`, `C06_sparse_hadamard_corrupts_refuted`, `C06_sparse_hadamard_nonfinite_refuted`.

**C07 Sparse scaling** (proved). Modelled and proved: operators, products, constructors and aggregates on the CRS model; simulation against the entrywise specification, refutations by computed witnesses. Any number type, with the exact-field corollary. Theorems: `C07_sparse_scale`, `C07_sparse_scale_exact`.

**C08 Erasing through an iterator** (partial). Modelled and proved: CRS storage (values, columns, row pointers, shared zero) and the three iterators; representation invariant, abstraction to functions position->value, induction over histories. Erased matrix content fully; returned iterator's row() wrong when the erased entry was alone in its row (refuted). Theorems: `C08_sparse_erase`, `C08_sparse_erase_next_partial`, `C08_sparse_erase_next_refuted`, `C08_sparse_set_through_iterator`.

**C09 Sparse swap exchanges two matrices** (partial). Modelled and proved: operators, products, constructors and aggregates on the CRS model; simulation against the entrywise specification, refutations by computed witnesses. Correct when column counts agree; refuted otherwise (column count not exchanged). Theorems: `C09_sparse_swap_partial`, `C09_sparse_swap_refuted`.

**C10 Sparse transpose / conjugate / adjugate** (proved). Modelled and proved: operators, products, constructors and aggregates on the CRS model; simulation against the entrywise specification, refutations by computed witnesses. Any number type (conjugation as an abstract involution). Theorems: `C10_sparse_transpose`, `C10_sparse_conjugate`.

**C11 Sparse matrix product** (proved). Modelled and proved: operators, products, constructors and aggregates on the CRS model; simulation against the entrywise specification, refutations by computed witnesses. Entries for any number type in the code's summation order; associativity and unit over a field. Theorems: `C11_sparse_mul`, `C11_sparse_mul_general`, `C11_sparse_mul_mismatch`, `C11_sparse_mul_assoc`, `C11_sparse_mul_unit`.

**C12 Sparse matrix-vector products** (proved). Modelled and proved: operators, products, constructors and aggregates on the CRS model; simulation against the entrywise specification, refutations by computed witnesses. Any number type; both sides. Theorems: `C12_sparse_mul_vector`, `C12_sparse_mul_left_vector`, `C12_sparse_vector_general`, `C12_sparse_vector_mismatch`.

**C13 Sparse equality is equality of matrices** (proved). Modelled and proved: operators, products, constructors and aggregates on the CRS model; simulation against the entrywise specification, refutations by computed witnesses. Any number type with the code's ==. Theorems: `C13_sparse_equality`.

**C14 Sparse initializer-list construction** (proved). Modelled and proved: operators, products, constructors and aggregates on the CRS model; simulation against the entrywise specification, refutations by computed witnesses. Any number type. Theorems: `C14_sparse_from_list`.

**C15 Sparse aggregates** (partial). Modelled and proved: operators, products, constructors and aggregates on the CRS model; simulation against the entrywise specification, refutations by computed witnesses. sum, average, trace, min fully; max() refuted for matrices with no entry >= numeric_limits::min(). Theorems: `C15_sparse_sum_trace_avg`, `C15_sparse_sum_trace_general`, `C15_sparse_max_partial`, `C15_sparse_min`, `C15_sparse_max_refuted`.

**C16 Linear and two-dimensional access agree** (proved). Modelled and proved: flat row-major storage and its iterators; injectivity of the index, list induction. Row-major linear index, any number type. Theorems: `C16_dense_linear_access`, `C16_sparse_linear_access`.

**C17 resize changes the shape** (partial). Modelled and proved: flat row-major storage and its iterators; injectivity of the index, list induction. resize is a no-op apart from argument checks for sparse and dense matrices: the expectation is refuted for both. Theorems: `C17_dense_resize_is_noop`, `C17_dense_resize_refuted`, `C17_sparse_resize_is_noop`, `C17_sparse_resize_refuted`.

**C18 Dense matrix reads return the last write** (proved). Modelled and proved: flat row-major storage and its iterators; injectivity of the index, list induction. Any number type; DenseMatrix and FixedMatrix; histories of set/linear_set from any constructed matrix. Theorems: `C18_dense_new`, `C18_dense_every_built_matrix_reads`, `C18_dense_history`, `C18_dense_has`, `C18_dense_out_of_range`.

**C19 Dense elementwise operators and their shape check** (partial). Modelled and proved: flat row-major storage and its iterators; injectivity of the index, list induction. Equal shapes and different sizes fully; equal size but different shape is accepted and combined in storage order (refuted). A *= *it (factor aliasing an entry) is exactly characterised and refuted. Theorems: `C19_dense_elementwise_partial`, `C19_dense_mismatch_partial`, `C19_dense_equal_size`, `C19_dense_shape_check_refuted`, `C19_dense_self`, `C19_dense_scale`, `C19_dense_negate`, `C19_dense_scale_by_own_entry`, `C19_dense_scale_by_own_entry_refuted`.

**C20 Dense products and transposition** (proved). Modelled and proved: flat row-major storage and its iterators; injectivity of the index, list induction. Entries for any number type in the code's summation order; (AB)^T = B^T A^T and associativity over a field. FixedMatrix::conjugate/adjugate cannot be instantiated and are not modelled. Theorems: `C20_dense_mul`, `C20_dense_mul_mismatch`, `C20_dense_mul_vector`, `C20_dense_transpose`, `C20_dense_transpose_twice`, `C20_dense_conjugate`, `C20_dense_product_transpose`, `C20_dense_mul_assoc`.

**C21 Dense iterators traverse exactly the selected entries** (proved). Modelled and proved: flat row-major storage and its iterators; injectivity of the index, list induction. All three traversals, for arbitrary loop bodies in the all-entries case; writing through iterators. Theorems: `C21_dense_iteration`, `C21_dense_for_loop`, `C21_dense_row_iteration`, `C21_dense_column_iteration`, `C21_dense_set_through_iterator`.

**C22 Vector arithmetic is elementwise and size checked** (proved). Modelled and proved: vectors and sets as lists; list induction, separate models of aliased calls. All operators, also with target and operand the same object. That operands stay unchanged and that a throwing operator changed nothing is by construction of the model (the size check precedes every write). Theorems: `C22_vector_elementwise`, `C22_vector_elementwise_self`, `C22_vector_mismatch`, `C22_vector_scalar`, `C22_vector_scalar_exact`.

**C23 Dot product, magnitude and normalisation** (proved). Modelled and proved: vectors and sets as lists; list induction, separate models of aliased calls. dot/magSqr/mag for any number type; symmetry, linearity over a field; normalized() over an ordered field with square roots (reals). Theorems: `C23_cauchy_schwarz`, `C23_triangle`, `C23_vector_dot`, `C23_vector_dot_symmetric`, `C23_vector_dot_linear`, `C23_vector_normalized`.

**C24 max()/min() return the largest/smallest entry** (partial). Modelled and proved: vectors and sets as lists; list induction, separate models of aliased calls. min fully; max() refuted when no entry reaches numeric_limits::min(). Theorems: `C24_vector_max_partial`, `C24_vector_min`, `C24_vector_exact`, `C24_vector_max_refuted`.

**C25 Sub-vectors** (partial). Modelled and proved: vectors and sets as lists; list induction, separate models of aliased calls. Fixed vectors: slice followed by zeros; dynamic vectors always abort (refuted). Theorems: `C25_vector_slices_fixed_partial`, `C25_vector_slices_dynamic_refuted`, `C25_vector_has`.

**C26 Scalar arguments are values** (partial). Modelled and proved: vectors and sets as lists; list induction, separate models of aliased calls. Exact effect of an aliased scalar for + - *; refuted as a value semantics; /= is right. Theorems: `C26_vector_alias_exact`, `C26_vector_alias_last_partial`, `C26_vector_div_alias`, `C26_vector_alias_refuted`.

**C27 Vector resize, swap and equality** (proved). Modelled and proved: vectors and sets as lists; list induction, separate models of aliased calls. swap is std::vector::swap and not separately proved. Theorems: `C27_vector_resize`, `C27_vector_equality`, `C27_vector_swap`.

**C28 Structured constructors** (proved). Modelled and proved: loops over the matrix interface; loop invariants; Hilbert inverse by a telescoping identity for binomials. Any number type for dense, exact zero tests for sparse; all shapes. Theorems: `C28_eye`, `C28_eye_fixed`, `C28_diag`, `C28_diag_of`, `C28_diag_round_trip`.

**C29 Triangular parts** (proved). Modelled and proved: loops over the matrix interface; loop invariants; Hilbert inverse by a telescoping identity for binomials. All shapes and all diagonals k (including beyond the matrix). Theorems: `C29_tril`, `C29_triu`, `C29_split`.

**C30 Hilbert matrices** (partial). Modelled and proved: loops over the matrix interface; loop invariants; Hilbert inverse by a telescoping identity for binomials. hilbert(n) in full. inv_hilbert(n) is the exact inverse as long as no intermediate size_t product overflows (stated bound); refuted beyond it (overflowing n exhibited). Theorems: `C30_hilbert`, `C30_inv_hilbert_partial`, `C30_inv_hilbert_overflow_refuted`.

**C31 Matrix predicates decide their definitions** (proved). Modelled and proved: loops over the matrix interface; loop invariants; Hilbert inverse by a telescoping identity for binomials. Exact arithmetic; FixedMatrix has no unitary check that can be instantiated. Theorems: `C31_orthogonal`, `C31_orthogonal_fixed`, `C31_unitary`, `C31_projection`, `C31_symmetric`, `C31_hermitian`, `C31_skew_symmetric`, `C31_skew_hermitian`.

**C32 Dense/sparse conversion round-trips** (proved). Modelled and proved: loops over the matrix interface; loop invariants; Hilbert inverse by a telescoping identity for binomials. The source names undefined types DynamicMatrix/Matrix in the conversion header; the model reads them as DenseMatrix. Theorems: `C32_to_sparse`, `C32_to_dense`, `C32_round_trips`.

**C33 Cuthill-McKee returns a permutation** (partial). Modelled and proved: queue-based ordering on the CRS model; search invariant with the set of visited rows; permutation algebra. Always terminates and returns n indices: the non-empty rows once each, then zeros; hence a permutation iff no row is empty (refuted otherwise). Reverse variant = reverse; non-square throws. Theorems: `C33_cuthill`, `C33_permutation_partial`, `C33_reverse`, `C33_not_square`, `C33_empty_row_refuted`.

**C34 Permuting and un-permuting** (proved). Modelled and proved: queue-based ordering on the CRS model; search invariant with the set of visited rows; permutation algebra. All permutations and matrices; any number type. Theorems: `C34_inverse_permutation`, `C34_permutation_matrix`, `C34_permutate`, `C34_round_trip`, `C34_mismatch`.

**C35 Vector and matrix permutation are consistent** (partial). Modelled and proved: queue-based ordering on the CRS model; search invariant with the set of visited rows; permutation algebra. permutate(v,p) uses the inverse permutation of permutate(m,p): refuted in general, proved for involutions and with the inverse permutation for vectors. Theorems: `C35_permutate_vector`, `C35_mismatch`, `C35_system_partial`, `C35_involution_partial`, `C35_vector_refuted`.

**C36 LU factorisation with pivoting** (partial). Modelled and proved: all loops of the factorizations; loop invariants over an (ordered) field, own permutation-sum determinant (DetSpec.v) with multiplicativity and Laplace expansion proved. Sparse overload in full; dense overload for zero output matrices, with the exact effect on other outputs; refuted for outputs that are not zero (which is what inverse(m) passes). The singularity exception is thrown only if changing one column by at most epsilon per entry makes the matrix singular, hence never for matrices with a sufficiently small inverse (C36_well_conditioned). Theorems: `C36_sparse`, `C36_dense_partial`, `C36_dense_any_output_partial`, `C36_bad_shapes`, `C36_dirty_output_refuted`, `C36_well_conditioned`.

**C37 Cholesky factorisation** (partial). Modelled and proved: all loops of the factorizations; loop invariants over an (ordered) field, own permutation-sum determinant (DetSpec.v) with multiplicativity and Laplace expansion proved. SPD in full, for a zero output matrix; symmetric with non-zero leading minors: decides definiteness. Refuted on [[0]] (0/0) and for a dirty output matrix. Theorems: `C37_spd`, `C37_symmetric_partial`, `C37_bad_shapes`, `C37_semidefinite_refuted`, `C37_dirty_output_refuted`.

**C38 Triangular solve** (proved). Modelled and proved: all loops of the factorizations; loop invariants over an (ordered) field, own permutation-sum determinant (DetSpec.v) with multiplicativity and Laplace expansion proved. Dense and sparse; which exception on which shapes; thresholds |x| <= eps as in the code. Theorems: `C38_solve`, `C38_bad_shapes`.

**C39 Incomplete LU** (proved). Modelled and proved: all loops of the factorizations; loop invariants over an (ordered) field, own permutation-sum determinant (DetSpec.v) with multiplicativity and Laplace expansion proved. Pattern of A = its non-zero entries, diagonal non-zero, L and U start as zero matrices. Theorems: `C39_ilu0`, `C39_not_square`.

**C40 Inverse of triangular factors** (partial). Modelled and proved: all loops of the factorizations; loop invariants over an (ordered) field, own permutation-sum determinant (DetSpec.v) with multiplicativity and Laplace expansion proved. Lower factor in full; upper factor refuted at 1x1 (1/u^2) and 3x3. Theorems: `C40_lower_partial`, `C40_upper_1x1_refuted`, `C40_upper_3x3_refuted`.

**C41 Determinant** (partial). Modelled and proved: all loops of the factorizations; loop invariants over an (ordered) field, own permutation-sum determinant (DetSpec.v) with multiplicativity and Laplace expansion proved. Exact for epsilon 0 for all three matrix types; for positive epsilon the determinant, or 0 for matrices within epsilon of a singular one; exact for well-conditioned matrices; refuted on diag(2^-53,1). Theorems: `C41_exact`, `C41_multiplicative`, `C41_row_exchange`, `C41_threshold_partial`, `C41_well_conditioned`, `C41_threshold_refuted`.

**C42 Inverse** (partial). Modelled and proved: all loops of the factorizations; loop invariants over an (ordered) field, own permutation-sum determinant (DetSpec.v) with multiplicativity and Laplace expansion proved. Sparse in full; dense characterised exactly and refuted (P starts as a copy of m); inverse(L,U) for unit diagonals, refuted otherwise. For well-conditioned matrices the sparse inverse always succeeds and is the inverse. Theorems: `C42_sparse_partial`, `C42_well_conditioned`, `C42_from_factors_partial`, `C42_dense_partial`, `C42_dense_only_monomial_refuted`, `C42_dense_refuted`, `C42_unit_factors_partial`, `C42_factors_refuted`.

**C43 Conjugate gradient results carry their residual certificate** (partial). Modelled and proved: both solvers as fuelled loops; residual invariant, conjugacy induction in an inner-product space over an ordered field. Certificate, shape errors and termination proved for both solvers over every ordered field. Refuted: the count for maxIter=0 is 1; an exact start gives NaN for doubles (0/0). Theorems: `C43_certificate`, `C43_bad_shapes`, `C43_count_refuted`, `C43_exact_start_refuted`.

**C44 Conjugate gradient finite termination** (partial). Modelled and proved: both solvers as fuelled loops; residual invariant, conjugacy induction in an inner-product space over an ordered field. pcg in full (any SPD preconditioner, and the one from CG::jacobi). cg proved for n <= 2 and refuted for n = 3: it builds the direction from the old residual instead of the old direction. Theorems: `C44_pcg`, `C44_cg_partial`, `C44_cg_refuted`, `C44_jacobi_preconditioner`, `C44_jacobi_pcg`.

**C45 Jacobi iteration** (partial). Modelled and proved: sweeps as loops; fixed-point and contraction arguments, energy identity. Exact run, stopping rule, fixed point, certificate, convergence for dominant systems; safety for any number type. Refuted: a zero diagonal with non-zero numerator returns an infinite vector as converged. For strictly dominant systems the tolerance is an error bound ((1-q)|y-s| <= q eps), the number of sweeps is bounded and the iteration ends by itself (C45_stop, C45_terminates; same for Gauss-Seidel). Theorems: `C45_run`, `C45_fixed_point`, `C45_certificate`, `C45_convergence`, `C45_stop`, `C45_terminates`, `C45_bad_shapes`, `C45_safe`, `C45_zero_diagonal_refuted`.

**C46 SOR iteration** (partial). Modelled and proved: a sweep as a recursion on the row, energy identity per coordinate step (drop (2/w-1) a_ii delta^2); for convergence: the residual after a sweep is a combination of the updates, so the energy drops by a fixed fraction (no compactness), Bernoulli bound for q^k; also for matrices in levels (block triangular with SPD diagonal blocks after row scaling) by a weighted sum of the block energies. Every sweep but the first is textbook SOR (all of them when x0=0 or w=1). Refuted: the first sweep mixes with 0 instead of x0, so solutions are not fixed and a non-solution is reported converged. Convergence theorems hold for every start (counted from the first sweep). Gauss-Seidel on strictly dominant systems: error bound at the stop and sweep count (C46_gauss_seidel_stop). Theorems: `C46_run_partial`, `C46_zero_start`, `C46_fixed_points`, `C46_energy`, `C46_convergence`, `C46_convergence_any_start`, `C46_terminates`, `C46_gauss_seidel_fixed`, `C46_gauss_seidel_convergence`, `C46_gauss_seidel_stop`, `C46_first_sweep_refuted`.

**C47 Simplex local/global maps are mutually inverse** (proved). Modelled and proved: 2x2 case of all loops; field identities with the code's pivoting case split. All maps, matrices and the volume for every triangle, with the exact condition under which the code treats a triangle as degenerate. Refuted for that case: with epsilon>0 a thin triangle has volume 0 depending on the corner numbering. Theorems: `C47_corners`, `C47_prepare`, `C47_matrices`, `C47_roundtrip`, `C47_barycentric`, `C47_to_global`, `C47_reference`, `C47_volume`, `C47_unit_volume`, `C47_volume_invariant`, `C47_proper_exact`, `C47_unprepared`, `C47_wrong_size`, `C47_tiny_refuted`, `C47_stale`.

**C48 Simplex gradients and normals** (proved). Modelled and proved: 2x2 case of all loops; field identities with the code's pivoting case split. Gradients, face centres and outward unit normals for every non-degenerate triangle; Math::normal in every dimension. Refuted: an out-of-range face index is undefined behaviour instead of an abort. Theorems: `C48_gradient`, `C48_gradient_range`, `C48_face_center`, `C48_face_normal`, `C48_face_range_refuted`, `C48_normal_any_dimension`.

**C49 Simplex circumcentre and radii** (partial). Modelled and proved: 2x2 case of all loops; field identities with the code's pivoting case split. diameter() proved. center() and outerRadius() refuted: the code multiplies by the determinant instead of dividing and forgets corner 0; proved what they return instead. Theorems: `C49_diameter`, `C49_center_partial`, `C49_center_refuted`, `C49_radius_partial`, `C49_radius_refuted`.

**C50 Mesh neighbourhood is complete and symmetric** (proved). Modelled and proved: pools of vertices, elements, edges; induction over the build program and over elements/faces with an explicit graph invariant. All build histories (add/mark vertex, add element of three distinct vertices) followed by setupNeighbors: succeeds iff no face has three owners, and then edges and neighbour slots are exact and symmetric; a second call changes nothing. Adding elements after a first setupNeighbors leaves stale edges (refuted). Accessors by number: C50_access. Theorems: `C50_neighbours`, `C50_exact`, `C50_symmetric`, `C50_access`, `C50_again`, `C50_incremental_refuted`.

**C51 Mesh boundary flags** (proved). Modelled and proved: pools of vertices, elements, edges; induction over the build program and over elements/faces with an explicit graph invariant. Flag after = flag before or lies on a face with one owner; nothing else changes. Theorems: `C51_boundary`.

**C52 Mesh handles share data safely** (partial). Modelled and proved: state machine of handles and data blocks; invariant that counts equal the number of live handles, for every history. All histories of handle operations outside the exact set of forbidden ones (self-assignment of a sole handle, use of a moved-from handle: refuted, undefined behaviour). clear() leaks its edges and leaves them dangling (refuted). Theorems: `C52_safe`, `C52_shared`, `C52_freed_once`, `C52_exact`, `C52_clear`, `C52_owner`, `C52_self_assignment_refuted`, `C52_moved_from_refuted`, `C52_clear_refuted`.

**C53 HyperCube mesh generation** (partial). Modelled and proved: generation loops on the mesh model; closed form of the vertex grid and triangles, geometric tiling proof over an ordered field. Counts, positions, neighbourhood, flags, equal area, exact tiling for all counts and sizes over any ordered field. The tiled rectangle is s0*e1/e0 by s1*e0/e1: the requested one iff e0=e1 (refuted in general for e0<>e1). Theorems: `C53_generate`, `C53_throws`, `C53_boundary`, `C53_area`, `C53_tiles`, `C53_square`, `C53_extent_refuted`.

**C54 Shape functions are a nodal basis** (partial). Modelled and proved: all switch branches; ring identities; derivatives as derivable_pt_lim over the reals. Nodal basis, partition of unity and polynomial reproduction for (1,1), (2,1), (2,2), (3,1) over any ordered field; (1,2) has functions 1 and 2 exchanged and a fourth DOF that aborts; (2,3) and (3,2) always abort (all refuted). C54_tables: with ten node values both dead tables would be nodal, so only DOF is wrong. Theorems: `C54_nodal`, `C54_partition`, `C54_interpolates`, `C54_range`, `C54_line_refuted`, `C54_cubic_refuted`, `C54_tetra_refuted`, `C54_tables`.

**C55 Shape function derivatives** (partial). Modelled and proved: all switch branches; ring identities; derivatives as derivable_pt_lim over the reals. Derivatives in the sense of the standard library's derivable_pt_lim over the reals for every usable pair. With node values: all but gradient for (2,1) (stray factor, refuted); node values do not form the linear combination of the functions (refuted). The dead order-3 second derivative has local[1] instead of local[0] (refuted with ten node values). Theorems: `C55_derivatives`, `C55_node_values_partial`, `C55_uniform`, `C55_gradient_refuted`, `C55_combination_refuted`, `C55_tetra_table`, `C55_cubic_table_partial`, `C55_cubic_second_refuted`.

**C56 prepareMesh DOF numbering** (proved). Modelled and proved: prepareMesh loops on pools; invariant relating added vertices to faces. prepareMesh of order 1 and 2 on every valid triangle mesh after setupNeighbors; the K=1 branch is not modelled. Theorems: `C56_first_order`, `C56_second_order`, `C56_shape_order`, `C56_validate`, `C56_without_neighbours_refuted`, `C56_twice_refuted`.

**C57 Quadrature exactness** (proved). Modelled and proved: rule tables and evaluation loop; exact rational bounds on moments, transferred to the Riemann integral. Quadrature literals are read as exact decimals and values bounded by the stated error; float rounding is not modelled. Beyond the statement: the third triangle rule has a negative weight (refuted theorem). Theorems: `C57_sum`, `C57_index`, `C57_linear`, `C57_start`, `C57_points`, `C57_exact`, `C57_integrable`, `C57_degree`, `C57_weights`, `C57_positive`, `C57_positive_refuted`.

**C58 VTK output encodes the mesh** (proved). Modelled and proved: the writer as a token stream; reading it back with an independent reader. Proved by reading the written token stream back, for all prepared triangle meshes and any mesh whose elements have 3 (6) DOF vertices. Refuted: empty point data is UB, the gradient array announces 4 components but has 2, unprepared meshes get offsets without connectivity. Number formatting and stream failure are not modelled. Theorems: `C58_mesh`, `C58_quadratic`, `C58_any`, `C58_data`, `C58_labels`, `C58_element_arrays`, `C58_element_data`, `C58_exportable`, `C58_no_point_data_refuted`, `C58_gradient_refuted`, `C58_unprepared_refuted`, `C58_determinant_unprepared`, `C58_three_dimensions_refuted`.

**C59 Triangle file loading rejects malformed input** (partial). Modelled and proved: getline, skipWS, number lexing, iterator arithmetic; induction on text. Well-formed files load exactly; wrong headers, numbering and truncated lines (followed by a blank or comment) throw. Refuted: several malformed lines are accepted, unparsable or lonely first words and out-of-range references are UB. Decimal conversion (strtod) is a parameter; the iostream lexing is modelled. Theorems: `C59_loads`, `C59_mesh`, `C59_file`, `C59_node_header`, `C59_element_header`, `C59_node_numbers`, `C59_element_numbers`, `C59_node_short`, `C59_element_short`, `C59_indented_safe`, `C59_bad_reference_refuted`, `C59_missing_files_refuted`, `C59_malformed_accepted_refuted`, `C59_before_the_line_refuted`.

**C60 OBJ loading** (proved). Modelled and proved: loops over the parsed shape; reduction to build programs of C50. tinyobj's parsing and the float->T cast are not modelled: the theorems start from its parsed shapes. Theorems: `C60_loads`, `C60_rejects`, `C60_safe`, `C60_mesh`, `C60_only_first_shape`, `C60_empty_shape_aborts`, `C60_degenerate_accepted`.

**C61 Binomial coefficients and factorial** (partial). Modelled and proved: 64-bit arithmetic; induction. factorial and sign_pow in full; binom exact when no intermediate product overflows and k<=n; refuted: k>n and overflowing intermediates. Theorems: `C61_sign_pow`, `C61_factorial`, `C61_binom_partial`, `C61_binom_out_of_range_refuted`, `C61_binom_intermediate_refuted`, `C61_real_binom`, `C61_real_binom_nat`.

**C62 Vector construction, access, iteration and aggregates** (proved). Modelled and proved: vectors and sets as lists; list induction, separate models of aliased calls. Any number type. Theorems: `C62_vector_from_list`, `C62_vector_access`, `C62_vector_iteration`, `C62_vector_aggregates`.

**C63 Dense matrices from initializer lists** (proved). Modelled and proved: flat row-major storage and its iterators; injectivity of the index, list induction. Non-empty lists fully; an empty list is undefined behaviour (refuted). Theorems: `C63_dense_from_list`, `C63_dense_from_empty_list_refuted`.

**C64 Dense equality and swap** (proved). Modelled and proved: flat row-major storage and its iterators; injectivity of the index, list induction. Any number type. Theorems: `C64_dense_equality`, `C64_dense_swap`.

**C65 Dense aggregates** (partial). Modelled and proved: flat row-major storage and its iterators; injectivity of the index, list induction. max() refuted for matrices with no entry >= numeric_limits::min(). Theorems: `C65_dense_counts`, `C65_dense_sum_trace_avg`, `C65_dense_sum_general`, `C65_dense_max_partial`, `C65_dense_min`, `C65_dense_max_refuted`.

**C66 Mesh preparation and validation** (proved). Modelled and proved: pools of vertices, elements, edges; induction over the build program and over elements/faces with an explicit graph invariant. Full, over any ordered field for the area test (the threshold is the code's numeric zero test). Theorems: `C66_prepare`, `C66_validate`.

**C67 Poisson program solves the five-point scheme** (proved). Modelled and proved: assembly loops as a list of writes, compared with the rows of the scheme; discrete maximum principle (first maximum in storage order); existence from uniqueness by elimination; defect of an SOR iterate from its last update plus stability bound X(W-X)/2. Convergence: rim = level 0, inside = level 1 of the block theorem for SOR, negated rows are symmetric positive definite by row sums and the maximum principle. Exact arithmetic. Parameters of main() are quantified (XC, YC are inputs of the model); BOUNDARY_MODE 0 only, console output not modelled, data file as numbers. C67_tolerance_refuted records that the tolerance itself is not an error bound (a finding, not part of the claim). Theorems: `C67_assembly`, `C67_solvable`, `C67_run`, `C67_convergence`, `C67_terminates`, `C67_certificate`, `C67_tolerance_refuted`.

**C68 Heat program solves the implicit scheme** (proved). Modelled and proved: as C67, with the time level as the smaller index in the maximum principle; comparison function linear in time. Convergence: one level per time step (two when the conductivity vanishes somewhere), rows scaled by 1/k. Exact arithmetic. BOUNDARY_MODE 0 only; the reserve argument of the matrix constructor and the console output are not modelled. Theorems: `C68_assembly`, `C68_solvable`, `C68_bounds`, `C68_run`, `C68_convergence`, `C68_terminates`, `C68_certificate`.

**C69 Entry norms and condition estimate** (partial). Modelled and proved: row loops as folds giving an attained upper (lower) bound; Cauchy-Schwarz and Minkowski over any ordered field with square roots. Proved for max_norm2. min_norm2 and cond of a sparse matrix look only at the stored (non-zero) entries and count a row without entries with the largest double, so they depend on the representation (C69_min_norm2_refuted). Theorems: `C69_max_norm2`, `C69_nonnegative`, `C69_definite`, `C69_homogeneous`, `C69_triangle`, `C69_entry_bound`, `C69_product_bound`, `C69_min_norm2_dense`, `C69_min_norm2_sparse_partial`, `C69_min_norm2_refuted`, `C69_cond_partial`.

**C70 Stream output of vectors and matrices** (proved). Modelled and proved: output loops as folds over the iteration theorems; splitting the text at blanks inverts the writer; decimal printing of indices is injective.  Theorems: `C70_vector`, `C70_dense`, `C70_sparse`, `C70_vector_unambiguous`, `C70_dense_unambiguous`, `C70_sparse_unambiguous`.

**C71 Finite element program: system, solvability and output** (partial). Modelled and proved: loop invariants for assembly and elimination against entry-wise sums; element energy = quadrature of a squared gradient (Jensen for the negative-weight rule) => positive definite by connectivity; injective => solvable; stencil computation on the grid; CG theorems C43/C44 for the solvers; gradients compared by the normality of the element map. Proved: system, elimination, symmetry, positive definiteness, unique solvability, five-point scheme on square cells, solver certificates, outputs. Refuted: the element gradients use J^-1 instead of its transpose, so the discretisation is right iff J is normal (C71_normal; wrong value on the fan); EPS drops the load of fine meshes; the order 2 estimate ignores four of six node values; a mesh without vertices aborts. Theorems: `C71_system`, `C71_unique`, `C71_nothing_dropped`, `C71_five_point`, `C71_solvers`, `C71_pcg`, `C71_handle`, `C71_true_gradient`, `C71_normal`, `C71_gradients_refuted`, `C71_small_loads_refuted`, `C71_empty_refuted`, `C71_estimate_refuted`.

**C72 Integer data is exact in double precision** (proved). Modelled and proved: binary64 operations = rounded real operations (through Flocq); integers up to 2^53 are doubles, so every rounding is exact; induction over the accumulation loops. Proved for all sizes; C72_limit_refuted shows that the 2^53 bound cannot be dropped. Theorems: `C72_vector`, `C72_dense_product`, `C72_sparse_product`, `C72_dense_operations`, `C72_sparse_operations`, `C72_limit_refuted`.

**C73 Rounding errors of vector and matrix arithmetic** (partial). Modelled and proved: standard model fl(x op y) = (x op y)(1+d)+e derived from the bit-level operations; induction over the accumulation loops of the model. Proved as stated. Refuted: v / scalar multiplies by the rounded reciprocal (C73_scalar_division_refuted), mag overflows and underflows for representable norms (C73_mag_refuted). Theorems: `C73_elementwise_nearest`, `C73_sum_and_dot`, `C73_dot_no_overflow`, `C73_mag`, `C73_max_min`, `C73_dense_product`, `C73_sparse_product`, `C73_dense_vector_product`, `C73_sparse_vector_product`, `C73_scalar_division_refuted`, `C73_mag_refuted`.

**C74 Backward stability of solve_lu** (proved). Modelled and proved: loop invariant for the row substitutions with the backward form of the rounding error; composition of the two triangular solves. Row-wise and combined residual bounds for dense and sparse storage. Theorems: `C74_rows`, `C74_residual`.

**C75 Backward stability of the LU decomposition** (partial). Modelled and proved: invariant over the elimination columns: residual bound for every entry of the active part and of the finished part, stable under row exchanges; rounding of 1+2^-53 to 1 for the multipliers; permutation products are exact; composition with C74. Proved for both overloads; for bounded entries C75_no_overflow_* discharges the premise lu_usable. C75_upper_refuted: the entries of U below the diagonal keep rounding residues. Theorems: `C75_dense`, `C75_sparse`, `C75_solve_dense`, `C75_solve_sparse`, `C75_upper_refuted`, `C75_no_overflow_dense`, `C75_no_overflow_sparse`.

**C76 The Poisson program approximates the Poisson equation** (proved). Modelled and proved: Taylor bounds for the difference quotients by four applications of the mean value theorem; stability of the scheme (C67) turns the consistency error into an error bound; triangle inequality with the C67 certificate. Point count: monotonicity of rounding between multiples of 1/4. Exact real arithmetic for the error bounds, doubles for the point count. C76_count_refuted: with the double nearest to 1/93 the program uses 93 instead of 94 points (a finding beyond the claim). Theorems: `C76_scheme`, `C76_order`, `C76_program`, `C76_count`, `C76_count_near`, `C76_count_refuted`.

**C77 The heat program approximates the heat equation** (proved). Modelled and proved: as C76, with a first order Taylor bound in time and the stability bound of C68. Exact real arithmetic. Theorems: `C77_scheme`, `C77_program`.

**C78 Quadrature error for smooth integrands** (proved). Modelled and proved: from C57's exactness: bound on the sum of absolute weights, monotonicity of the Riemann integral (Coquelicot), Taylor's theorem by induction on the order. Exact real arithmetic on the decimal tables of the code. Theorems: `C78_best`, `C78_line`.

**C79 The finite element program approximates the solution of the differential equation** (proved). Modelled and proved: the residual of the assembled system in closed form (extending C71), Taylor bounds, the discrete maximum principle of C67 and the certificates of C43 and C44. Exact real arithmetic, order 1 and square cells only. Theorems: `C79_system`, `C79_scheme`, `C79_program`.

**C80 Jacobi and SOR on doubles: what stopping by the tolerance guarantees** (proved). Modelled and proved: a description of one sweep as rounded quotients, the error of each quotient by the accumulation lemma of C73, the stopping test as a bound on each component, then the residual by the triangle inequality and the error by the largest component. The theorems say what holds when the solver stops by itself, in terms of the previous iterate; the guard `tame` excludes overflow, where the claim fails (C80_overflow_refuted). Theorems: `C80_jacobi`, `C80_jacobi_error`, `C80_sor`, `C80_sor_error`, `C80_overflow_refuted`.

**C81 The Poisson program in double arithmetic: distance of the written table from the solution** (proved). Modelled and proved: the assembled rows on doubles read back exactly (the fill operations touch disjoint places), the SOR stopping theorem of C80 row by row, the rounding error of the right-hand side, then the discrete maximum principle of C67 and the Taylor bound of C76. Hypotheses: finite tables in the last two sweeps (grid_tame), at least two sweeps or weight 1. The example meets them by computation. Theorems: `C81_poisson`, `C81_coefficients`, `C81_square`.

**C82 The heat program in double arithmetic: distance of the written tables from the solution** (proved). Modelled and proved: as for C81: rows read back exactly, the SOR stopping theorem of C80 row by row, rounding errors of the coefficients, then the comparison principle of C68 and the accuracy of the exact scheme (C77). Hypotheses: finite coefficients, finite tables in the last two sweeps (grid_tame3), at least two sweeps or weight 1. The example meets them by computation. Theorems: `C82_heat`.

**C83 setVertex/setElement replace one list entry and nothing else** (proved). Modelled and proved: list update lemmas; clear() is characterised exactly (defined iff the lists hold different live objects); validate() is followed up to the replaced entry. nullptr arguments are not modelled. The leak and the stale GlobalIndex are reported by C83_vertex_kept/C83_validate as facts about the code. Theorems: `C83_vertex`, `C83_element`, `C83_range`, `C83_vertex_clear`, `C83_element_clear`, `C83_clear_exact`, `C83_vertex_kept`, `C83_element_kept`, `C83_validate`.

**C84 Writing through mutable iterators** (proved). Modelled and proved: dense: the loop is a pass over different positions, each write is a set(); sparse: the in-place loop invariant of operator*= generalised to h; the dummy element is followed through internal_at. The abort after a write through a sparse end iterator (C84_sparse_end) is a fact about the code. Theorems: `C84_dense_loop`, `C84_dense_row`, `C84_dense_column`, `C84_dense_write`, `C84_dense_end`, `C84_sparse_loop`, `C84_sparse_write`, `C84_sparse_end`.

**C85 Incomplete LU of M-matrices** (proved). Modelled and proved: the exception of ilu0 is traced to a tiny pivot of the factorisation of the first rows (C39); strong induction over the rows shows that dropping fill-in only increases the row sums, so every pivot exceeds epsilon. Over ordered fields (exact arithmetic). Theorems: `C85_m_matrix`, `C85_apply`, `C85_poisson`.

**C86 Cuthill-McKee numbers breadth first by increasing degree** (proved). Modelled and proved: invariant of the queue: it is a suffix of the concatenated, degree-sorted adjacency lists of the numbered rows, and everything before it is numbered; the multimaps stay sorted by (degree, index); induction along the path for the tridiagonal case. Empty rows are left out (C33). Theorems: `C86_numbering`, `C86_unique`, `C86_tridiagonal`.

**C87 determinant() on doubles is the determinant of a nearby matrix** (proved). Modelled and proved: growth invariant of the elimination (entries at most double per step, multipliers at most 1, so nothing overflows) on top of the backward error invariant of C75; the exact determinant of L U by the product rule; induction for the rounding of the product. The bound contains the worst-case growth 2^n of partial pivoting. Theorems: `C87_dense`, `C87_fixed`, `C87_sparse`.

**C88 Solving and inverting on doubles, with explicit constants** (proved). Modelled and proved: C75's residual bound with the premises (finite factors, pivots at most 2^1022) discharged by the growth invariant, and its data-dependent terms bounded by the entries; loop invariant over the columns of the inverse. inverse(m) of a dense matrix is wrong already in exact arithmetic (C42), so the dense statement is about inverse(L,U,P). Theorems: `C88_solve_dense`, `C88_solve_sparse`, `C88_inverse_sparse`, `C88_inverse_dense`.

**C89 cholesky on doubles is backward stable and never returns garbage silently** (proved). Modelled and proved: loop invariant over the columns with the error of each entry (backward form of each rounded operation, the diagonal being recomputed as t/sqrt(t)); a row can only be accepted if its sum of squares is finite, so no infinite or NaN entry survives. A NaN in the last diagonal entry (pivot exactly 0) really happens: [[1,1],[1,1]]. Theorems: `C89_dense`, `C89_sparse`.

**C90 cholesky on doubles succeeds on safely positive definite matrices** (proved). Modelled and proved: induction over the columns: if a bordered leading block had a row of squares above the diagonal entry minus the margin, a symmetric matrix within chol_error would have a vector with a non-positive form; so all sums are bounded by 2^e, nothing overflows and every pivot is positive.  Theorems: `C90_dense`, `C90_sparse`, `C90_dominant`, `C90_dominant_dense`, `C90_dominant_sparse`.

**C91 LU decomposition, determinant, linear systems and inverse on doubles succeed on safely nonsingular matrices** (proved). Modelled and proved: a column without acceptable pivot, or a pivot of modulus at most 2^-52, could be set to 0 by a change of one column of at most 2^-52, which together with the rounding errors gives an exactly singular matrix within the margin (determinant of the product of the modified factors). The substitutions are bounded by powers of 2: each step multiplies the largest value by at most 2^(max(0,e+n)+n+52). The criterion and the forward error follow from Y (A+E) = I + Y E.  Theorems: `C91_dense`, `C91_sparse`, `C91_condition`, `C91_det_dense`, `C91_det_sparse`, `C91_solve_dense`, `C91_solve_sparse`, `C91_inverse_sparse`, `C91_inverse_dense`.

**C92 Quadrature in double arithmetic** (proved). Modelled and proved: every literal is z/10^k with z and 10^k below 2^53, so the quotient of two exactly represented integers is the nearest double (C92_literals) and the double tables of the model are those of the compiled program. Standard rounding analysis of the accumulation (at most 4 terms), plus the perturbation of a polynomial of degree at most 5 under a change of the points by one unit roundoff, plus C57 and C78.  Theorems: `C92_literals`, `C92_points`, `C92_weights`, `C92_best`, `C92_positive`.

**C93 Jacobi and SOR converge and stop in double arithmetic** (proved). Modelled and proved: each computed equation is finite (the accumulated row stays below 2^1000 by dot_total) and its residual is bounded by the row error analysis of C80; with diagonal dominance this contracts the error by c up to a constant, within one sweep for SOR because errors never grow. The stopping test cannot be NaN because differences of two near iterates are finite, and it succeeds once the bound on the sum of squares is below the rounded square of the tolerance. Induction over the sweeps.  Theorems: `C93_jacobi`, `C93_jacobi_stops`, `C93_sor`, `C93_sor_stops`.

**C94 The triangle Simplex is accurate in double arithmetic** (proved). Modelled and proved: the determinant comes from doolittle on the rounded edge matrix: C87 gives a matrix within 49 * 2^-53 * 2^e of it whose determinant is computed (or, if a pivot is below epsilon, a singular one), so the value is near the exact one. The reciprocal times the computed determinant is 1 up to 1.1 * 2^-53, hence the computed local coordinate times the computed determinant is within 51 w of Cramer's numerator; comparing with A gives the bound. Absence of overflow from the range of e. The gradient is one product of the same kind. Every squared edge is computed up to 4.1 * 2^-53 and 2.1 * 2^-1075, the maximum inherits the bound and the root halves it, which gives the diameter.  Theorems: `C94_prepare`, `C94_to_global`, `C94_to_local`, `C94_point_exists`, `C94_roundtrip`, `C94_gradient`, `C94_diameter`, `C94_longest_edge_exists`, `C94_face_center`.


## 5. Trusted base

* Coq's kernel (8.16.1) and standard library. `vm_compute` is used for concrete examples and refutations
  (reduction is part of the kernel's trusted code). No axioms of our own, no functors or module types, no plugins.
* The translation from C++ to Gallina, done by hand, checked by citation of lines and by the seeded wrong programs in
  `seeded/LOG.jsonl` (each edits one definition as a realistic bug would and records which theorems break).
* C72-C75 are about IEEE doubles: `NumF64` is the standard library's `SpecFloat` at binary64, every operation rounded
  once to nearest even, no contraction (FMA) or reassociation, no extended precision. The MSVC build of the repository passes
  `/fp:fast` (CMakeLists.txt:43), which permits reassociation: there these properties are not guaranteed. Flocq is
  used in the proofs (not in the statements) and adds no axioms beyond those of the standard library's reals.
* Coquelicot is used only for the definition of the Riemann integral `is_RInt` in C57 (QuadSpec.v); it adds no axioms.
* Print Assumptions for every property theorem:

All axioms are declared in Coq's standard library (Reals, FunctionalExtensionality, Classical); none is ours.

* `ClassicalDedekindReals.sig_not_dec` : `forall P : Prop, {~ ~ P} + {~ P}`
* `ClassicalDedekindReals.sig_forall_dec` : `forall P : nat -> Prop, (forall n : nat, {P n} + {~ P n}) -> {n : nat | ~ P n} + {forall n : nat, P n}`
* `FunctionalExtensionality.functional_extensionality_dep` : `forall (A : Type) (B : A -> Type) (f g : forall x : A, B x), (forall x : A, f x = g x) -> f = g`
* `Classical_Prop.classic` : `forall P : Prop, P \/ ~ P`

### Closed under the global context (no axioms)

C01_sparse_every_built_matrix_reads C01_sparse_has_val C01_sparse_history C01_sparse_history_any_start C01_sparse_out_of_range C02_counts_after_underflow_refuted C02_sparse_counts C02_sparse_nan_inf C03_sparse_for_loop C03_sparse_iteration C04_sparse_column_iteration_partial C04_sparse_column_iteration_refuted C04_sparse_empty_column_aborts C04_sparse_row_iteration C05_sparse_add C05_sparse_add_self C05_sparse_sub C05_sparse_sub_self_refuted C06_sparse_hadamard_corrupts_refuted C06_sparse_hadamard_general_partial C06_sparse_hadamard_nonfinite_refuted C06_sparse_hadamard_partial C06_sparse_hadamard_wrong_value_refuted C07_sparse_scale C07_sparse_scale_exact C08_sparse_erase C08_sparse_erase_next_partial C08_sparse_erase_next_refuted C08_sparse_set_through_iterator C09_sparse_swap_partial C09_sparse_swap_refuted C10_sparse_conjugate C10_sparse_transpose C11_sparse_mul C11_sparse_mul_assoc C11_sparse_mul_general C11_sparse_mul_mismatch C11_sparse_mul_unit C12_sparse_mul_left_vector C12_sparse_mul_vector C12_sparse_vector_general C12_sparse_vector_mismatch C13_sparse_equality C14_sparse_from_list C15_sparse_max_partial C15_sparse_max_refuted C15_sparse_min C15_sparse_sum_trace_avg C15_sparse_sum_trace_general C16_dense_linear_access C16_sparse_linear_access C17_dense_resize_is_noop C17_dense_resize_refuted C17_sparse_resize_is_noop C17_sparse_resize_refuted C18_dense_every_built_matrix_reads C18_dense_has C18_dense_history C18_dense_new C18_dense_out_of_range C19_dense_elementwise_partial C19_dense_equal_size C19_dense_mismatch_partial C19_dense_negate C19_dense_scale C19_dense_scale_by_own_entry C19_dense_scale_by_own_entry_refuted C19_dense_self C19_dense_shape_check_refuted C20_dense_conjugate C20_dense_mul C20_dense_mul_assoc C20_dense_mul_mismatch C20_dense_mul_vector C20_dense_product_transpose C20_dense_transpose C20_dense_transpose_twice C21_dense_column_iteration C21_dense_for_loop C21_dense_iteration C21_dense_row_iteration C21_dense_set_through_iterator C22_vector_elementwise C22_vector_elementwise_self C22_vector_mismatch C22_vector_scalar C22_vector_scalar_exact C23_cauchy_schwarz C23_triangle C23_vector_dot C23_vector_dot_linear C23_vector_dot_symmetric C23_vector_normalized C24_vector_exact C24_vector_max_partial C24_vector_max_refuted C24_vector_min C25_vector_has C25_vector_slices_dynamic_refuted C25_vector_slices_fixed_partial C26_vector_alias_exact C26_vector_alias_last_partial C26_vector_alias_refuted C26_vector_div_alias C27_vector_equality C27_vector_resize C27_vector_swap C28_diag C28_diag_of C28_diag_round_trip C28_eye C28_eye_fixed C29_split C29_tril C29_triu C30_hilbert C30_inv_hilbert_overflow_refuted C30_inv_hilbert_partial C31_hermitian C31_orthogonal C31_orthogonal_fixed C31_projection C31_skew_hermitian C31_skew_symmetric C31_symmetric C31_unitary C32_round_trips C32_to_dense C32_to_sparse C33_cuthill C33_empty_row_refuted C33_not_square C33_permutation_partial C33_reverse C34_inverse_permutation C34_mismatch C34_permutate C34_permutation_matrix C34_round_trip C35_involution_partial C35_mismatch C35_permutate_vector C35_system_partial C35_vector_refuted C36_bad_shapes C36_dense_any_output_partial C36_dense_partial C36_dirty_output_refuted C36_sparse C36_well_conditioned C37_bad_shapes C37_dirty_output_refuted C37_semidefinite_refuted C37_spd C37_symmetric_partial C38_bad_shapes C38_solve C39_ilu0 C39_not_square C40_lower_partial C40_upper_1x1_refuted C40_upper_3x3_refuted C41_exact C41_multiplicative C41_row_exchange C41_threshold_partial C41_threshold_refuted C41_well_conditioned C42_dense_only_monomial_refuted C42_dense_partial C42_dense_refuted C42_factors_refuted C42_from_factors_partial C42_sparse_partial C42_unit_factors_partial C42_well_conditioned C43_bad_shapes C43_certificate C43_count_refuted C43_exact_start_refuted C44_cg_partial C44_cg_refuted C44_jacobi_pcg C44_jacobi_preconditioner C44_pcg C45_bad_shapes C45_certificate C45_convergence C45_fixed_point C45_run C45_safe C45_stop C45_terminates C45_zero_diagonal_refuted C46_convergence C46_convergence_any_start C46_energy C46_first_sweep_refuted C46_fixed_points C46_gauss_seidel_convergence C46_gauss_seidel_fixed C46_gauss_seidel_stop C46_run_partial C46_terminates C46_zero_start C47_barycentric C47_corners C47_matrices C47_prepare C47_proper_exact C47_reference C47_roundtrip C47_stale C47_tiny_refuted C47_to_global C47_unit_volume C47_unprepared C47_volume C47_volume_invariant C47_wrong_size C48_face_center C48_face_normal C48_face_range_refuted C48_gradient C48_gradient_range C48_normal_any_dimension C49_center_partial C49_center_refuted C49_diameter C49_radius_partial C49_radius_refuted C50_access C50_again C50_exact C50_incremental_refuted C50_neighbours C50_symmetric C51_boundary C52_clear C52_clear_refuted C52_exact C52_freed_once C52_moved_from_refuted C52_owner C52_safe C52_self_assignment_refuted C52_shared C53_area C53_boundary C53_extent_refuted C53_generate C53_square C53_throws C53_tiles C54_cubic_refuted C54_interpolates C54_line_refuted C54_nodal C54_partition C54_range C54_tetra_refuted C55_combination_refuted C55_uniform C56_first_order C56_second_order C56_shape_order C56_twice_refuted C56_validate C56_without_neighbours_refuted C57_index C57_linear C57_start C57_sum C58_any C58_data C58_determinant_unprepared C58_element_arrays C58_element_data C58_exportable C58_gradient_refuted C58_labels C58_mesh C58_no_point_data_refuted C58_quadratic C58_three_dimensions_refuted C58_unprepared_refuted C59_bad_reference_refuted C59_before_the_line_refuted C59_element_header C59_element_numbers C59_element_short C59_file C59_indented_safe C59_loads C59_malformed_accepted_refuted C59_mesh C59_missing_files_refuted C59_node_header C59_node_numbers C59_node_short C60_degenerate_accepted C60_empty_shape_aborts C60_loads C60_mesh C60_only_first_shape C60_rejects C60_safe C61_binom_intermediate_refuted C61_binom_out_of_range_refuted C61_binom_partial C61_factorial C61_real_binom C61_real_binom_nat C61_sign_pow C62_vector_access C62_vector_aggregates C62_vector_from_list C62_vector_iteration C63_dense_from_empty_list_refuted C63_dense_from_list C64_dense_equality C64_dense_swap C65_dense_counts C65_dense_max_partial C65_dense_max_refuted C65_dense_min C65_dense_sum_general C65_dense_sum_trace_avg C66_prepare C66_validate C67_assembly C67_certificate C67_convergence C67_run C67_solvable C67_terminates C67_tolerance_refuted C68_assembly C68_bounds C68_certificate C68_convergence C68_run C68_solvable C68_terminates C69_cond_partial C69_definite C69_entry_bound C69_homogeneous C69_max_norm2 C69_min_norm2_dense C69_min_norm2_refuted C69_min_norm2_sparse_partial C69_nonnegative C69_product_bound C69_triangle C70_dense C70_dense_unambiguous C70_sparse C70_sparse_unambiguous C70_vector C70_vector_unambiguous C71_empty_refuted C71_estimate_refuted C71_five_point C71_gradients_refuted C71_handle C71_normal C71_nothing_dropped C71_pcg C71_small_loads_refuted C71_solvers C71_system C71_true_gradient C71_unique C79_system C80_overflow_refuted C83_clear_exact C83_element C83_element_clear C83_element_kept C83_range C83_validate C83_vertex C83_vertex_clear C83_vertex_kept C84_dense_column C84_dense_end C84_dense_loop C84_dense_row C84_dense_write C84_sparse_end C84_sparse_loop C84_sparse_write C85_apply C85_m_matrix C85_poisson C86_numbering C86_tridiagonal C86_unique

### ClassicalDedekindReals.sig_forall_dec, FunctionalExtensionality.functional_extensionality_dep

C72_limit_refuted C73_mag_refuted C73_scalar_division_refuted C75_upper_refuted C90_dominant C94_point_exists

### ClassicalDedekindReals.sig_forall_dec, ClassicalDedekindReals.sig_not_dec, FunctionalExtensionality.functional_extensionality_dep

C54_tables C55_cubic_second_refuted C55_cubic_table_partial C55_derivatives C55_gradient_refuted C55_node_values_partial C55_tetra_table C57_points C57_positive C57_positive_refuted C57_weights C91_condition C92_points C92_weights C94_longest_edge_exists

### ClassicalDedekindReals.sig_forall_dec, ClassicalDedekindReals.sig_not_dec, Classical_Prop.classic, FunctionalExtensionality.functional_extensionality_dep

C57_degree C57_exact C57_integrable C72_dense_operations C72_dense_product C72_sparse_operations C72_sparse_product C72_vector C73_dense_product C73_dense_vector_product C73_dot_no_overflow C73_elementwise_nearest C73_mag C73_max_min C73_sparse_product C73_sparse_vector_product C73_sum_and_dot C74_residual C74_rows C75_dense C75_no_overflow_dense C75_no_overflow_sparse C75_solve_dense C75_solve_sparse C75_sparse C76_count C76_count_near C76_count_refuted C76_order C76_program C76_scheme C77_program C77_scheme C78_best C78_line C79_program C79_scheme C80_jacobi C80_jacobi_error C80_sor C80_sor_error C81_coefficients C81_poisson C81_square C82_heat C87_dense C87_fixed C87_sparse C88_inverse_dense C88_inverse_sparse C88_solve_dense C88_solve_sparse C89_dense C89_sparse C90_dense C90_dominant_dense C90_dominant_sparse C90_sparse C91_dense C91_det_dense C91_det_sparse C91_inverse_dense C91_inverse_sparse C91_solve_dense C91_solve_sparse C91_sparse C92_best C92_literals C92_positive C93_jacobi C93_jacobi_stops C93_sor C93_sor_stops C94_diameter C94_face_center C94_gradient C94_prepare C94_roundtrip C94_to_global C94_to_local

