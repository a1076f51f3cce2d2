# Formal model of PearCoding/NumericSim in Rocq (Coq 8.16.1)

This file says what is modelled, how each property is proved, and what has to be trusted. Sections 4 and 5 are
generated by `tools/gen_design.py` from `properties.jsonl`, `tools/notes.json`, the sources and Print Assumptions.

## 1. How the model is built

* **One Gallina function per C++ function**, each with a comment citing file and lines. All functions are total; what
  the C++ program does besides returning is an explicit outcome (`Base.v`, type `res`): `Ok v`, `Throw e` (C++ exception
  `e`), `Abort` (a failed `NS_ASSERT`, which is active by default, also in release: nsConfig.h:61-79), `UB` (undefined
  behaviour: out-of-range `std::vector` access, null/dangling pointer, an iterator moved before the beginning, use of an
  uninitialised variable), `Wrap` (an unsigned subtraction below zero whose wrapped value the model does not follow),
  `Hang` (fuel exhausted: the model's stand-in for non-termination). A theorem saying that a call returns `Ok` therefore
  also says: no abort, no UB, no wrap, and it terminates.
* **Loops** are `for_`/`for_n`/`foreach` (counting loops) or fuelled `while_` (iterator loops and solvers; theorems show
  that the fuel stated in the model is never exhausted, or that no fuel is enough).
* **Numbers.** Code is modelled over a record `Num` of operations *without laws* (`Num.v`), which includes square root,
  absolute value, comparisons, the conversions used by the code, `numeric_limits` constants and conjugation. Instances:
  `NumQc` (exact rationals), `NumR` (stdlib reals, with sqrt), `NumF64` (IEEE binary64 through `Coq.Floats.SpecFloat`,
  pure Gallina), `NumC` (complex numbers over an ordered field), `with_eps` (any instance with another epsilon).
  Structural theorems (storage, iteration, bounds, control flow) assume nothing, or only `0 == 0`, and hold for IEEE
  doubles. Algebraic theorems assume `FieldLaws N` / `OrdFieldLaws N` as premises (predicates, not axioms; instances
  for `NumQc`, `NumR` are proved): *exact arithmetic; rounding is not modelled there*.
* **Indices.** `size_t` is `nat`; sizes are bounded by memory, so sums/products of in-range indices do not wrap; where
  wrap matters (`binom`, `factorial`, `tril`/`triu`, `erase`, inverse Hilbert matrix, the file loader) it is modelled
  explicitly (`Z` modulo 2^64, or the `Wrap` outcome).
* **References/aliasing.** Mutating member functions return the new object; where two C++ references may alias, a
  separate aliased version is modelled (e.g. `A -= A`, `v *= v[0]`, `A *= *it`, `permutate(m, p, m)`).
* **Pointers.** Mesh data live in three pools (`list (option _)`, freed objects are `None`); handles (`Mesh` objects
  sharing data through `shared_ptr`-like counts) are a separate state machine on a pool of data blocks.
* **Matrix interface.** Code that is a template over the matrix type is modelled over a record `MatI` of operations and
  instantiated with the models of `DenseMatrix`/`FixedMatrix` and `SparseMatrix`; theorems quantify over
  `library_matrix N I` or over the laws that both instances are proved to satisfy.

## 2. Files

`rocq/theories/`: `XxxModel.v` hold the model (definitions only), `XxxSpec.v` small specification vocabularies
independent of the model's helpers, `XxxProofs.v` (and `XxxResult.v` etc.) lemmas, `PropXxx.v` the property theorems,
closed by `exact`, each with an `Example` showing that a concrete non-trivial case meets its hypotheses.
Theorems named `..._refuted` prove that the C++ as written violates the expectation (comments marked `[BUG]`);
`..._partial` prove part of a property. The claim is "proved" in MANIFEST.json when the statement with its quantifier as
written in properties.jsonl is proved in full; `_refuted` theorems beside it then describe what happens outside.

| Area | Source | Model | Properties |
|---|---|---|---|
| Outcomes, loops, numbers | - | Base, Num, NumInst, NumEps, NumC, OrdField | - |
| Sparse matrices | SparseMatrix.h/.inl | SparseModel | C01-C16 |
| Vectors, sets | Vector.inl, CountableSet.inl | VectorModel | C22-C27, C62 |
| Dense, fixed matrices | BaseMatrix.inl, DenseMatrix.inl, FixedMatrix.inl | DenseModel | C16-C21, C63-C65 |
| Interface | (templates over M) | MatI, MatOps | - |
| Utilities | Utils.h | UtilsModel | C61 |
| Constructors, checks, conversion | MatrixConstructor.inl, MatrixCheck.inl, MatrixConverter.inl | ConstructModel | C28-C32 |
| Orderings | MatrixOrder.inl | OrderModel | C33-C35 |
| Factorizations | LU.inl, MatrixOperations.inl | LUModel | C36-C42 |
| Iterative solvers | CG.inl, Iterative.inl | IterModel | C43-C46 |
| Simplices, normals | Simplex.inl, Normal.h | SimplexModel | C47-C49 |
| Meshes | Mesh.h/.inl | MeshModel, MeshHandle | C50-C52, C66 |
| Hypercube meshes | HyperCube.inl | MeshModel | C53 |
| Shape functions, DOF numbering | PolyShapeFunction.inl | ShapeModel, MeshModel | C54-C56 |
| Quadrature | GaussLegendreQuadratureFactory.inl, Quadrature.inl | QuadModel | C57 |
| VTK export | VTKExporter.inl | VtkModel | C58 |
| Triangle files | MeshTriangleLoader.inl | TriModel | C59 |
| OBJ files | MeshObjLoader.inl | ObjModel | C60 |
| Example programs | examples/poisson/fdm.cpp, examples/heat/main.cpp | GridModel | C67, C68 |
| Entry norms | MatrixOperations.inl:150-196 | LUModel | C69 |
| Stream output | OutputStream.h | StreamModel | C70 |
| Finite element example | examples/poisson/fem.cpp:75-389 | FemModel | C71 |
| Vector, matrix and solve_lu, doolittle on IEEE doubles | Vector.inl, DenseMatrix.inl, SparseMatrix.inl, LU.inl | NumInst (NumF64) with the models above, FloatSpec, FloatLUSpec | C72-C75 |
| Accuracy of the finite difference programs; point counts | examples/poisson/fdm.cpp, examples/heat/main.cpp | GridModel (grid_count), AccuracySpec | C76, C77 |
| Quadrature error | quadrature/GaussLegendreQuadratureFactory.inl | QuadModel, AccuracySpec (derivatives) | C78 |
| Accuracy of the finite element program | examples/poisson/fem.cpp, mesh/HyperCube.inl | FemModel, FemSpec (mean6), AccuracySpec (bent) | C79 |
| Iterative solvers in double arithmetic | Iterative.inl | IterModel at NumF64, FloatIterSpec | C80 |
| Poisson program in double arithmetic | examples/poisson/fdm.cpp | GridModel at NumF64, GridFloatSpec | C81 |
| Heat program in double arithmetic | examples/heat/main.cpp | GridModel at NumF64, GridFloatSpec | C82 |
| Mesh::setVertex/setElement | src/lib/mesh/Mesh.inl | MeshSet | C83 |
| Mutable iterators | src/lib/matrix/BaseMatrix.inl, SparseMatrix.inl | IterWrite | C84 |
| ILU(0) of M-matrices | src/lib/LU.inl | ILUStable | C85 |
| Cuthill-McKee rule | src/lib/matrix/MatrixOrder.inl | OrderModel, OrderSpec | C86 |
| determinant on doubles | src/lib/matrix/MatrixOperations.inl, src/lib/LU.inl | FloatGrowth, FloatDetSpec, FloatDet | C87 |
| solving and inverse on doubles | src/lib/matrix/MatrixOperations.inl, src/lib/LU.inl | FloatInv | C88 |
| cholesky on doubles | src/lib/LU.inl | FloatCholSpec, FloatChol | C89 |
| success of cholesky | src/lib/LU.inl | FloatCholSafe | C90 |
| success of LU, determinant, solving, inverse | src/lib/LU.inl, src/lib/matrix/MatrixOperations.inl | FloatLUSafeSpec, FloatLUSafe | C91 |
| quadrature on doubles | quadrature/*.inl | FloatQuad | C92 |
| Iterative on doubles: convergence | Iterative.inl | FloatConv | C93 |
| Simplex on doubles | Simplex.inl | FloatSimplex | C94 |
@@MORE@@

`tools/coverage.py` lists how many code lines of each source file are cited by a definition of the model (every .inl
file almost completely; the rest are declarations, post-increment and const forwarding overloads, and what follows).

## 3. Not modelled

* Rounding in theorems that assume field laws; exceptions of memory exhaustion (`bad_alloc`), with the exception of
  `length_error` in the file loader; threads (the code base has none).
* `Exceptions.h` texts; number formatting (6 digits) and stream failure
  in VTKExporter; XML escaping of data names (the code does none).
* `tiny_obj_loader.h` (third party): C60 starts from the shapes it returns; the float -> T cast.
* `strtod` inside the Triangle loader: a parameter `conv`; the lexing by `num_get`, `tellg`, `getline` is modelled.
* `Simplex`, `Mesh`, `prepareMesh` for K <> 2 (Mesh<T,3> cannot be instantiated; the K=1 branch of prepareMesh is not
  modelled); `HyperCube<T,K>::generate` for K <> 2 (returns an empty mesh). Shape functions are modelled for every (K, order).
* `FixedMatrix::conjugate/adjugate` (use an undeclared function, cannot be instantiated); post-increment and c-versions
  of iterator accessors (forward to the modelled ones); vector capacity.
* Tests (`tests/`) and the command-line parts of the examples.
* Quadrature constants are read as exact decimals.

## 4. Properties

@@TABLE@@

## 5. Trusted base

* Coq's kernel (8.16.1) and standard library. `vm_compute` is used for concrete examples and refutations
  (reduction is part of the kernel's trusted code). No axioms of our own, no functors or module types, no plugins.
* The translation from C++ to Gallina, done by hand, checked by citation of lines and by the seeded wrong programs in
  `seeded/LOG.jsonl` (each edits one definition as a realistic bug would and records which theorems break).
* C72-C75 are about IEEE doubles: `NumF64` is the standard library's `SpecFloat` at binary64, every operation rounded
  once to nearest even, no contraction (FMA) or reassociation, no extended precision. The MSVC build of the repository passes
  `/fp:fast` (CMakeLists.txt:43), which permits reassociation: there these properties are not guaranteed. Flocq is
  used in the proofs (not in the statements) and adds no axioms beyond those of the standard library's reals.
* Coquelicot is used only for the definition of the Riemann integral `is_RInt` in C57 (QuadSpec.v); it adds no axioms.
* Print Assumptions for every property theorem:

@@ASSUMPTIONS@@
