#!/usr/bin/env python3
"""Writes /verif/properties.jsonl (one JSON object per line)."""
import json, os
P = []
def p(id, title, statement, quantifier, why, anchors):
    P.append(dict(id=id, title=title, statement=statement, quantifier=quantifier,
                  why_tests_cant=why, anchors=anchors))
S = "src/lib/matrix/SparseMatrix.inl"
D = "src/lib/matrix/DenseMatrix.inl"
B = "src/lib/matrix/BaseMatrix.inl"
V = "src/lib/Vector.inl"
L = "src/lib/LU.inl"

p("C01","Sparse matrix reads return the last write",
  "After any sequence of set(i,j,v)/linear_set(k,v) calls on a SparseMatrix of any shape, at(i,j) returns the last value written to (i,j) (0 if none), has(i,j) is true exactly when that value is not ==0, every other position is untouched, and no in-range call aborts; an out-of-range call aborts by assertion and changes nothing.",
  "all shapes, all finite histories of writes with all values (any number type, including IEEE doubles), all read positions",
  "the storage is a compressed-row structure whose row pointers are shifted by each insert/remove; a wrong shift only shows for particular interleavings of insert, overwrite and removal over empty and non-empty rows",
  [S+": SparseMatrix::set, at, has, linear_set, linear_at, internal_at, set_at, remove_at, row_entry_count"])
p("C02","Sparse matrix counts are exact",
  "After any history of writes filled_count() equals the number of positions whose value is not ==0, has_zero() says whether some position is 0, and empty() holds iff all positions are 0; row_filled_count(r) is the number of non-zero positions of row r.",
  "all shapes, all histories of writes, all rows",
  "needs the invariant of the representation for every history",
  [S+": filled_count, has_zero, empty, row_filled_count"])
p("C03","Whole-matrix sparse iteration is complete, ordered and terminates",
  "Iterating begin()..end() over a SparseMatrix terminates and yields each non-zero position exactly once, in row-major order, with row(), column() and * equal to its position and value.",
  "all matrices reachable by any history of writes",
  "empty rows (leading, trailing, consecutive) make the row reconstruction in ++ history dependent",
  [S+": SparseMatrixIterator::operator++, operator*, begin, end"])
p("C04","Row and column sparse iteration",
  "row_begin(i)..row_end(i) yields exactly the non-zero entries of row i in column order; column_begin(j)..column_end(j) yields exactly the non-zero entries of column j in row order (also when there are none).",
  "all reachable matrices, all rows / columns",
  "must hold for every pattern of empty rows/columns",
  [S+": SparseMatrixRowIterator, SparseMatrixColumnIterator, row_begin, column_begin, column_filled_count"])
p("C05","Sparse addition and subtraction are entrywise",
  "For matrices of equal shape A+B and A-B have entry (i,j) equal to the sum/difference of the entries, the operands are unchanged and the result stores no zero; the compound forms A+=B, A-=B change A alone in the same way, also when B is A itself.",
  "all shapes, all reachable operands, aliased or not",
  "cancellation removes entries while iterating; aliasing mutates the sequence being iterated",
  [S+": operator+=, operator-=, operator+, operator-"])
p("C06","Sparse elementwise product is entrywise",
  "A*=B (Hadamard) leaves in A at every position the product of the two entries.",
  "all shapes, all reachable operand pairs",
  "wrong only for particular relative positions of the two patterns and empty rows",
  [S+": operator*=(const SparseMatrix&), erase"])
p("C07","Sparse scaling",
  "A*=f multiplies every entry by f; scaling by 0 empties the matrix; -A negates; shape is unchanged.",
  "all reachable matrices, all scalars",
  "must hold for every pattern and value",
  [S+": operator*=(const T&), operator-(v), operator*(v1,f)"])
p("C08","Erasing through an iterator",
  "erase(it) removes exactly the entry `it` points at and returns an iterator designating the next remaining entry (its row(), column() and value), or end; set(it,v) replaces that entry only (erasing when v is 0).",
  "all reachable matrices, all valid iterators",
  "the new row must be found among rows emptied by the erase",
  [S+": erase, set(iterator)"])
p("C09","Sparse swap exchanges two matrices",
  "a.swap(b) exchanges the complete observable contents (shape and entries) of a and b.",
  "all pairs of matrices, also of different shapes",
  "only mismatching shapes reveal a member that is not exchanged",
  [S+": swap"])
p("C10","Sparse transpose / conjugate / adjugate",
  "transpose() has entry (j,i) equal to entry (i,j) of the original, of swapped shape, and transposing twice gives an equal matrix; conjugate() conjugates each entry in place; adjugate() is the conjugate transpose.",
  "all reachable matrices",
  "entrywise statement over all shapes and patterns",
  [S+": transpose, conjugate, adjugate"])
p("C11","Sparse matrix product",
  "A.mul(B) throws MatrixMulMismatchException exactly when A.columns()!=B.rows(), otherwise its (i,k) entry is the sum over j of A(i,j)*B(j,k), of shape rows(A) x columns(B); eye is neutral and the product is associative.",
  "all shapes and reachable operands over a field",
  "sum over all indices; skipped zero entries must not matter",
  [S+": mul(const SparseMatrix&)"])
p("C12","Sparse matrix-vector products",
  "A.mul(v) is the vector of sums A(i,j)*v(j), A.mul_left(v) of sums v(i)*A(i,j); each throws MatrixMulMismatchException exactly on a size mismatch.",
  "all shapes, reachable matrices, all vectors over a field",
  "sum over all indices for all patterns",
  [S+": mul(const Vector&), mul_left"])
p("C13","Sparse equality is equality of matrices",
  "A==B is true iff both have the same shape and equal entries at every position; != is its negation; it always terminates.",
  "all pairs of reachable matrices over a number type with exact equality",
  "compares two internal sequences; must agree with entrywise equality for every history that led to them",
  [S+": operator==, operator!="])
p("C14","Sparse initializer-list construction",
  "SparseMatrix{rows...} has as many rows as the list, as many columns as its longest row, entry (i,j) the j-th element of row i or 0 if missing.",
  "all non-empty lists of rows of any lengths (ragged too) with a non-empty row",
  "ranges over every list of lists",
  [S+": SparseMatrix(std::initializer_list)"])
p("C15","Sparse aggregates",
  "sum() is the sum of all entries, trace() of the diagonal ones, avg() the sum divided by rows*columns; max()/min() are the largest/smallest entry (counting the unstored zeros).",
  "all reachable matrices over an ordered field",
  "sign patterns and the interaction with unstored zeros",
  [S+": sum, trace, avg, max, min"])
p("C16","Linear and two-dimensional access agree",
  "linear_at(i*columns()+j) == at(i,j) and linear_set likewise, for sparse and dense matrices; every linear index below size() is one such pair.",
  "all shapes, all positions",
  "division/modulo identity for all values",
  [S+": linear_at, linear_set", "src/lib/matrix/BaseMatrix.inl: at, set, linear_at, linear_set"])
p("C17","resize changes the shape",
  "After m.resize(r,c) the matrix has r rows and c columns.",
  "all matrices and sizes",
  "statement for all shapes",
  [S+": resize", D+": resize"])
p("C18","Dense matrix reads return the last write",
  "For DenseMatrix/FixedMatrix, after any history of set/linear_set, at(i,j) is the last value written, other positions are untouched, new matrices are all zero, out-of-range access aborts and changes nothing.",
  "all shapes, histories, positions, any number type",
  "row-major addressing must be injective for every shape",
  [B+": at, set", D+": DenseMatrix(Dimension,Dimension)"])
p("C19","Dense elementwise operators and their shape check",
  "A+B, A-B and A*B (Hadamard) are entrywise for equal shapes and throw MatrixSizeMismatchException, leaving the operand unchanged, for different shapes; scaling and negation are entrywise.",
  "all shapes and values, matching or not",
  "mismatching shapes with equal element count form an unbounded family",
  [B+": operator+=, operator-=, operator*=, operator/="])
p("C20","Dense products and transposition",
  "mul computes row-times-column sums and throws exactly on mismatch, mul(v)/mul_left(v) likewise; transpose swaps indices and (A*B)^T = B^T*A^T.",
  "all shapes over a field",
  "sum identities for all dimensions",
  [D+": mul, mul_left, transpose, conjugate, adjugate"])
p("C21","Dense iterators traverse exactly the selected entries",
  "begin..end visits all entries in row-major order, row_begin(i)..row_end(i) row i left to right, column_begin(j)..column_end(j) column j top to bottom, each terminating.",
  "all shapes, rows and columns",
  "iterator end conditions for every shape",
  ["src/lib/matrix/BaseMatrix.h: MatrixIterator", B+": begin, end, row_begin, column_begin"])
p("C22","Vector arithmetic is elementwise and size checked",
  "v1+v2, v1-v2, v1*v2, v1/v2 and the scalar forms are elementwise; operands of different size raise VectorSizeMismatchException and leave the target unchanged; operators never modify their const operands.",
  "all sizes and values",
  "all sizes and both outcomes",
  [V+": operator +=, operator -=, operator *=, operator /=, operator +, operator -, operator *, operator /"])
p("C23","Dot product, magnitude and normalisation",
  "dot is the sum of products (symmetric, bilinear), magSqr is dot with itself, mag its non-negative root, and normalized() has magnitude 1 and the same direction for every non-zero vector.",
  "all sizes, all real vectors",
  "universally quantified identity over reals",
  [V+": dot, mag, magSqr, normalized, normalize"])
p("C24","max()/min() return the largest/smallest entry",
  "v.max() (m.max()) is an entry that is >= all entries, min() one that is <= all.",
  "all non-empty vectors/matrices of doubles in range",
  "the start value only matters when all entries lie on one side of it",
  ["src/lib/CountableSet.inl: max, min", S+": max, min"])
p("C25","Sub-vectors",
  "left(n), right(n), mid(i,n) return the corresponding slice.",
  "all vectors (fixed and dynamic) and all in-range slices",
  "all sizes and positions",
  [V+": left, right, mid"])
p("C26","Scalar arguments are values",
  "v*=f, v+=f, v-=f, v/=f apply the scalar value passed at the call to every element, also when the argument is an element of v.",
  "all vectors, all scalars including references into the vector",
  "aliasing between argument and target",
  [V+": operator*=(const T&), operator+=(const T&), operator-=(const T&), operator/=(const T&)"])
p("C27","Vector resize, swap and equality",
  "resize(n) keeps the first min(n,size) elements and zero-fills the rest; swap exchanges; == is elementwise and throws on a size mismatch.",
  "all sizes and contents",
  "all sizes",
  [V+": operator ==", "src/lib/CountableSet.inl: resize, swap"])
p("C28","Structured constructors",
  "eye(n) has 1 on the diagonal and 0 elsewhere; diag(v) has v on the diagonal; diag(m) extracts m's diagonal; diag(diag(v)) == v.",
  "all sizes, dense and sparse",
  "all dimensions",
  ["src/lib/matrix/MatrixConstructor.inl: eye, diag"])
p("C29","Triangular parts",
  "tril(m,k) keeps exactly the entries with column <= row+k, triu(m,k) exactly those with column >= row+k, for every signed k; tril(m,k)+triu(m,k+1) == m.",
  "all shapes, all 32-bit signed offsets k",
  "negative offsets are compared through unsigned wrap-around",
  ["src/lib/matrix/MatrixConstructor.inl: tril, triu"])
p("C30","Hilbert matrices",
  "hilbert(n)(i,j)=1/(i+j+1) and inv_hilbert(n) is its exact inverse.",
  "all n (exact arithmetic)",
  "identity of binomial sums for all n",
  ["src/lib/matrix/MatrixConstructor.inl: hilbert, inv_hilbert", "src/lib/Utils.h: binom"])
p("C31","Matrix predicates decide their definitions",
  "isSymmetric, isHermitian, isSkewSymmetric, isSkewHermitian, isOrthogonal, isUnitary, isProjection return true iff the matrix is square and satisfies A=A^T, A=A^*, A=-A^T, A=-A^*, AA^T=I, AA^*=I, AA=A.",
  "all matrices over a field with involution",
  "both directions for all matrices",
  ["src/lib/matrix/MatrixCheck.inl"])
p("C32","Dense/sparse conversion round-trips",
  "Converting dense->sparse or sparse->dense preserves shape and every entry, so there-and-back is the identity.",
  "all matrices",
  "all shapes and patterns",
  ["src/lib/matrix/MatrixConverter.inl"])
p("C33","Cuthill-McKee returns a permutation",
  "cuthill_mckee(m) terminates and returns a permutation of 0..n-1 (its reverse variant likewise) for every square matrix.",
  "all square patterns",
  "disconnected graphs and isolated/empty rows",
  ["src/lib/matrix/MatrixOrder.inl: cuthill_mckee, r_cuthill_mckee"])
p("C34","Permuting and un-permuting",
  "permutate(m,p) has entry (i,j) equal to m(p(i),p(j)), i.e. equals P m P^T with P=permutation_matrix(p); applying it with inverse_permutation(p) restores m; inverse_permutation really inverts.",
  "all permutations, all matrices",
  "all permutations of all sizes",
  ["src/lib/matrix/MatrixOrder.inl: permutation_matrix, inverse_permutation, permutate"])
p("C35","Vector and matrix permutation are consistent",
  "permutate(v,p) equals P*v for the same P that permutate(m,p)=P m P^T uses, so A x = b is equivalent to permutate(A) permutate(x) = permutate(b).",
  "all permutations, matrices and vectors",
  "only non-involutive permutations reveal a direction error",
  ["src/lib/matrix/MatrixOrder.inl: permutate"])
p("C36","LU factorisation with pivoting",
  "doolittle(A,L,U,P) either throws (not square / singular) or yields P a permutation matrix, L unit lower triangular, U upper triangular with P*A = L*U, |L(i,j)|<=1, and pivotCount equal to the number of row exchanges performed.",
  "all square matrices over an ordered field (dense and sparse)",
  "algebraic identity for all n and all pivoting histories",
  [L+": doolittle"])
p("C37","Cholesky factorisation",
  "cholesky(A) either throws or returns lower triangular L with L*L^T = A for symmetric A; it never throws on a symmetric positive definite A.",
  "all symmetric real matrices of any size",
  "algebraic identity for all n",
  [L+": cholesky"])
p("C38","Triangular solve",
  "solve_lu(L,U,b) either throws SingularException or returns x with L*(U*x)=b, reading only the lower part of L and the upper part of U.",
  "all n, all triangular pairs, all right-hand sides over a field",
  "forward/back substitution for all n",
  [L+": solve_lu"])
p("C39","Incomplete LU",
  "ilu0(A,L,U) yields unit lower L and upper U with zero entries outside the pattern of A and (L*U)(i,j)=A(i,j) at every stored position of A.",
  "all sparse patterns with stored diagonal",
  "depends on the pattern; all patterns",
  [L+": ilu0"])
p("C40","Inverse of triangular factors",
  "ainv_lu returns the inverses of the unit lower factor L and of the upper factor U.",
  "all triangular factors of any size",
  "identity for all n",
  [L+": ainv_lu"])
p("C41","Determinant",
  "determinant(m) is the determinant of m (0 for singular matrices); it is multiplicative and changes sign under row swaps.",
  "all square matrices over a field",
  "for all n and pivot histories, sign accumulates",
  ["src/lib/matrix/MatrixOperations.inl: determinant"])
p("C42","Inverse",
  "inverse(m) returns the two-sided inverse of every nonsingular m, for every matrix type; otherwise it throws.",
  "all square matrices",
  "for all n, both matrix types",
  ["src/lib/matrix/MatrixOperations.inl: inverse"])
p("C43","Conjugate gradient results carry their residual certificate",
  "cg/pcg: if the iteration count reported is below maxIter then the returned x satisfies |b-A x|^2 < eps^2 (exact arithmetic); the iteration count never exceeds maxIter; starting at an exact solution returns it; shape errors are exceptions.",
  "all matrices, right-hand sides, start vectors, eps, iteration limits",
  "loop invariant over unbounded iterations",
  ["src/lib/CG.inl: cg, pcg"])
p("C44","Conjugate gradient finite termination",
  "For symmetric positive definite A of size n, cg and pcg (with a symmetric positive definite preconditioner, e.g. the one CG::jacobi computes) stop within n steps below any tolerance, and at the exact solution for small tolerances.",
  "all SPD systems",
  "conjugacy invariant over all steps",
  ["src/lib/CG.inl: cg, pcg"])
p("C45","Jacobi iteration",
  "jacobi: the exact solution is a fixed point; when it stops by tolerance the last update, which is the scaled residual of the previous iterate, is below eps; on diagonally dominant systems every step shrinks the error by the dominance factor; a zero diagonal raises MatrixHasZeroInDiagException and never yields a non-finite vector; nothing aborts.",
  "all systems, start vectors, limits",
  "invariants over unbounded iterations and all diagonals",
  ["src/lib/Iterative.inl: jacobi, serial"])
p("C46","SOR iteration",
  "sor with any relaxation weight: the exact solution is a fixed point; each sweep mixes the previous iterate with the Gauss-Seidel value; with weight 1 it is Gauss-Seidel and converges on diagonally dominant systems; for symmetric matrices with positive diagonal and weight in [0,2] the energy error never grows; for symmetric positive definite matrices and weight in (0,2) it converges geometrically to the solution from every start, stops by itself for every non-zero tolerance, and the tolerance then bounds the error up to a constant of the matrix and weight.",
  "all systems, weights, start vectors",
  "all weights and start vectors",
  ["src/lib/Iterative.inl: sor"])
p("C47","Simplex local/global maps are mutually inverse",
  "toLocal(toGlobal(x))=x and toGlobal(toLocal(y))=y for every non-degenerate simplex, vertices map to the reference vertices, the local coordinates are barycentric, volume is |det|/2 and is invariant under vertex reordering and translation.",
  "all points and all triangles that the code does not treat as degenerate (exact arithmetic; the exact condition is part of the theorems, e.g. every non-degenerate triangle for epsilon 0)",
  "identity over all reals",
  ["src/lib/Simplex.inl: prepare, toLocal, toGlobal, volume"])
p("C48","Simplex gradients and normals",
  "gradient(i) is the gradient of the i-th barycentric coordinate; faceNormal(i) is a unit vector orthogonal to face i pointing outward.",
  "all non-degenerate triangles, face and vertex numbers in range",
  "identity over all reals",
  ["src/lib/Simplex.inl: gradient, faceNormal, faceCenter", "src/lib/Normal.h"])
p("C49","Simplex circumcentre and radii",
  "center() is equidistant from all vertices, outerRadius() is that distance, and diameter() is the longest edge.",
  "all non-degenerate triangles",
  "identity over all reals; holds by accident for the reference simplex",
  ["src/lib/Simplex.inl: center, outerRadius, diameter"])
p("C50","Mesh neighbourhood is complete and symmetric",
  "After setupNeighbors, two elements are neighbours across a face iff they share that face's vertices, the relation is symmetric, each face is listed once with its one or two elements; a face shared by three elements raises an exception.",
  "all programs that add vertices and elements (three different vertices each) and then call setupNeighbors once",
  "quantifies over all element lists and insertion orders",
  ["src/lib/mesh/Mesh.inl: setupNeighbors"])
p("C51","Mesh boundary flags",
  "After setupBoundaries exactly the vertices lying on a face that belongs to a single element carry the boundary flag.",
  "all meshes",
  "all element lists",
  ["src/lib/mesh/Mesh.inl: setupBoundaries"])
p("C52","Mesh handles share data safely",
  "Copying/assigning/destroying/moving Mesh handles never accesses freed data, and shared data is freed exactly once, when the last handle goes.",
  "all histories of handle operations",
  "lifetime property of all histories",
  ["src/lib/mesh/Mesh.inl: Mesh(const Mesh&), operator=, ~Mesh"])
p("C53","HyperCube mesh generation",
  "hypercube(e0,e1,s0,s1) generates (e0+1)(e1+1) vertices filling the rectangle s0 x s1, 2*e0*e1 triangles of equal area that tile it, with exactly the outer vertices flagged as boundary; counts <1 throw.",
  "all element counts and sizes",
  "all counts, unequal counts too",
  ["src/lib/mesh/HyperCube.inl"])
p("C54","Shape functions are a nodal basis",
  "At DOF node j the i-th shape function is 1 if i=j else 0, and the functions sum to 1 everywhere.",
  "all local points, all degrees of freedom of every supported (dimension, order)",
  "identity over all reals",
  ["src/lib/sf/PolyShapeFunction.inl: value"])
p("C55","Shape function derivatives",
  "gradient(i,x) is the gradient of value(i,.) at x, gradient2 the second derivative; the node-value forms are the corresponding linear combinations.",
  "all local points, all supported (dimension, order)",
  "derivative identity over all reals",
  ["src/lib/sf/PolyShapeFunction.inl: gradient, gradient2"])
p("C56","prepareMesh DOF numbering",
  "For order 2 on triangles prepareMesh adds exactly one vertex per face at its midpoint, shared by both adjacent elements, in the slot matching the shape function of that face, flagged implicit and boundary iff the face is a boundary face.",
  "all triangle meshes after setupNeighbors, prepareMesh called once",
  "all element lists",
  ["src/lib/sf/PolyShapeFunction.inl: prepareMesh"])
p("C57","Quadrature exactness",
  "eval is linear and integrates every polynomial of the rule's degree over the reference simplex with the documented accuracy; weights sum to the simplex volume.",
  "all polynomials up to the stated degree",
  "all coefficients",
  ["src/lib/quadrature/GaussLegendreQuadratureFactory.inl", "src/lib/quadrature/Quadrature.inl: eval"])
p("C58","VTK output encodes the mesh",
  "The exported file lists each vertex's coordinates, padded to three components, and connectivity/offset/type arrays that describe each element: its cell's points are, in order, the element's DOF vertices (corners, and for quadratic elements the edge midpoints); every point/cell data entry appears under its name with exactly its values, and labels and determinants exactly when requested.",
  "all triangle meshes (K=2; Mesh<T,3> cannot be instantiated) after prepareMesh, or otherwise with 3 (6) DOF vertices per element; both orders, all option words, all data maps with at least one point entry",
  "all meshes, options and data maps",
  ["src/lib/export/VTKExporter.inl"])
p("C59","Triangle file loading rejects malformed input",
  "Every malformed vertex/element line raises an exception, every well-formed file yields exactly its vertices and elements, 0- or 1-based; comments and blank lines are ignored.",
  "all input files",
  "all strings",
  ["src/lib/loader/MeshTriangleLoader.inl"])
p("C60","OBJ loading",
  "Each face vertex index is checked against the vertex count before use: the loader throws exactly when some index of the first shape is out of range, never accesses anything out of range, and otherwise creates exactly the points (projected to two coordinates) and faces of the first shape, with the neighbourhood set up.",
  "all parsed shapes with at least one point and one face (an empty first shape aborts), all index lists, both selected coordinates",
  "all index lists",
  ["src/objloader/loader/MeshObjLoader.inl"])
p("C61","Binomial coefficients and factorial",
  "binom(n,k) terminates and equals n!/(k!(n-k)!) for k<=n and 0 for k>n when the value fits; factorial(n)=n!; sign_pow(n)=(-1)^n.",
  "all n, k without overflow",
  "all n, k: termination and exact divisibility",
  ["src/lib/Utils.h: binom, factorial, sign_pow"])

p("C62","Vector construction, access, iteration and aggregates",
  "A vector built from a list holds exactly the list (zero-padded for fixed size, abort if too long); at/set access exactly one element and abort out of range; begin..end visits every element once in order; sum, avg, fill, reciprocal, hasNaN/hasInf/hasZero agree with the elements.",
  "all sizes, contents, indices and loop bodies",
  "all sizes and loop bodies",
  ["src/lib/CountableSet.inl", "src/lib/CountableSet.h: CountableSetIterator", "src/lib/Vector.inl: Vector"])

p("C63","Dense matrices from initializer lists",
  "DenseMatrix{{...},...} has one row per inner list and as many columns as the longest; entry (i,j) is the j-th number of the i-th list, 0 where the list is shorter. FixedMatrix likewise with its own shape, aborting when a list does not fit.",
  "all non-empty ragged lists, any number type",
  "all list shapes",
  ["src/lib/matrix/DenseMatrix.inl: DenseMatrix(initializer_list)", "src/lib/matrix/FixedMatrix.inl: FixedMatrix(initializer_list)"])
p("C64","Dense equality and swap",
  "For equal shapes A==B iff all corresponding entries compare equal and A!=B is its negation; for different shapes both throw MatrixSizeMismatchException. swap exchanges contents and shapes.",
  "all pairs of dense matrices, any number type",
  "all pairs of matrices",
  ["src/lib/matrix/BaseMatrix.inl: operator==, operator!=", "src/lib/matrix/DenseMatrix.inl: swap"])
p("C65","Dense aggregates",
  "sum() adds all entries, avg() divides by rows*columns, trace() adds the diagonal, max()/min() are the largest/smallest entry, has_nan/has_inf/has_zero/empty say whether such entries exist.",
  "all dense matrices (ordered field for max/min, field for reordering)",
  "all shapes and contents",
  ["src/lib/matrix/BaseMatrix.inl: sum, max, min, avg, has_nan, has_inf, has_zero, empty, trace"])

p("C66","Mesh preparation and validation",
  "prepare() computes the matrices of every element's simplex from its vertices; validate() then throws IsolatedVertex iff some vertex belongs to no element, otherwise ZeroVolumeSimplex iff some element has (numerically) zero area, and otherwise returns.",
  "all meshes built by adding vertices and elements and running setupNeighbors",
  "all vertex and element lists",
  ["src/lib/mesh/Mesh.inl: prepare, validate"])

p("C67","Poisson program solves the five-point scheme",
  "The poisson example with Dirichlet boundary assembles, for every grid, step widths, source f and boundary values b, a system A X = B whose solutions are exactly the grid functions that equal b on the rim and whose five-point Laplacian is f inside. That discrete problem has exactly one solution. The program always ends and writes one line per grid row; if the reported iteration count is below the limit, every written value is within an explicit bound (linear in the tolerance, depending on step widths and relaxation weight) of that solution. For weights in (0,2) the written values approach it geometrically with the number of iterations, and the iteration stops by itself for every non-zero tolerance.",
  "all grid sizes of at least one point per direction, all non-zero step widths, all functions f and b, all weights, iteration limits and tolerances, exact arithmetic",
  "all grid sizes and all f, b; the error bound quantifies over the unknown exact solution",
  ["examples/poisson/fdm.cpp: main, LIN"])
p("C68","Heat program solves the implicit scheme",
  "The heat example with Dirichlet boundary assembles, for every grid, time and space steps, conductivity k, source f, boundary values b and initial values t0, a system whose solutions are exactly the grid functions that equal t0 at time 0, b on the rim at later times and satisfy (u_t - u_(t-1))/HT = k Laplace u_t + f inside. For k >= 0 and HT > 0 the scheme has exactly one solution, which without sources stays between the bounds of t0 and b whatever the time step. The program always ends and writes one block per time; if the reported iteration count is below the limit, every value is within an explicit bound of that solution. For weights in (0,2) the written values approach it geometrically, and the iteration stops by itself for every non-zero tolerance.",
  "all grid sizes and numbers of time steps, all step widths, functions, weights, limits and tolerances, exact arithmetic",
  "all grid sizes, times and coefficient functions",
  ["examples/heat/main.cpp: main, LIN"])

p("C69","Entry norms and condition estimate",
  "max_norm2(A) is the Euclidean norm of the vector of the largest absolute values of the rows, for dense and sparse matrices alike; it is a norm (non-negative, zero for the zero matrix only, homogeneous, triangle inequality), bounds every entry, and |A x| <= max_norm2(A) * sum |x_j|. min_norm2 is the same with the smallest absolute values, and cond = max_norm2 / min_norm2 depends on the entries only and is at least 1.",
  "all matrices of positive size with dense or sparse storage and all entries, exact arithmetic",
  "all sizes and all entries, relations between three matrices",
  ["src/lib/matrix/MatrixOperations.inl: max_norm2, min_norm2, cond"])

p("C70","Stream output of vectors and matrices",
  "Writing a vector or matrix to a stream produces '[ ', the elements (for dense matrices row by row with '| ' between rows; for sparse matrices exactly the non-zero entries in row-major order as '(row, column; value) ') and ']'. As long as numbers are written without blanks, the text determines the written numbers and, except for the dimensions of a sparse matrix, the shape.",
  "all vectors and matrices, all number formats of the stream",
  "all sizes and contents, all number formats; unambiguity relates two arbitrary objects",
  ["src/lib/OutputStream.h: operator<<"])

p("C71","Finite element program: system, solvability and output",
  "handleMesh of the finite element example assembles, for every connected and prepared triangle mesh with proper triangles and for orders 1 and 2, a matrix and right-hand side that are the sums of the element matrices and vectors (numeric quadrature, entries up to EPS dropped) with the boundary values substituted and the boundary rows and columns eliminated symmetrically. Solutions are exactly the node values that equal g on the boundary and satisfy the original rows inside. If no matrix entry is dropped and every vertex is connected to the boundary, the matrix is symmetric positive definite and there is exactly one solution. On the square-celled HyperCube with order 1 and constant source the system is the five-point difference scheme. The whole run never aborts or has undefined behaviour, throws only if the preconditioner meets a tiny diagonal; the reported iteration count certifies the residual, and the written files and error arrays are the stated functions of the node values.",
  "all meshes built by adding vertices and elements and running the setup functions, orders 1 and 2, all three solvers, all source, boundary and solution functions, all drop tolerances, exact arithmetic",
  "all meshes and functions; existence and uniqueness of the unknown solution",
  ["examples/poisson/fem.cpp: handleMesh"])

p("C72","Integer data is exact in double precision",
  "On IEEE doubles, vectors and matrices with integer values are computed exactly: sum, dot, +, -, elementwise * and scaling of vectors, and +, -, scaling, matrix product, matrix-vector product and trace of dense and sparse matrices return exactly the integer results as long as the sums of the absolute values of the terms stay at or below 2^53.",
  "all sizes, all integer-valued doubles below the 2^53 bound",
  "all sizes and values; a test can sample only a few integers",
  ["src/lib/CountableSet.inl: sum","src/lib/Vector.inl: dot, operator","src/lib/matrix/DenseMatrix.inl: mul, operator","src/lib/matrix/SparseMatrix.inl: mul, operator"])
p("C73","Rounding errors of vector and matrix arithmetic",
  "On IEEE doubles, elementwise +, -, *, / return the nearest double of the exact result; sum, dot, mag, matrix products and matrix-vector products differ from the exact result by at most ((1+2^-53)^n - 1) times the sum of the absolute values of the terms plus an explicit underflow term (for sparse rows n counts the non-zero entries only), and do not overflow below an explicit threshold; max and min are exact. (v / scalar is not correctly rounded, and mag overflows or underflows for representable norms: refuted.)",
  "all sizes, all doubles whose results are finite",
  "all doubles and all lengths",
  ["src/lib/CountableSet.inl: sum, max, min","src/lib/Vector.inl: dot, mag, operator","src/lib/matrix/DenseMatrix.inl: mul","src/lib/matrix/SparseMatrix.inl: mul"])
p("C74","Backward stability of solve_lu",
  "On IEEE doubles, solve_lu(L, U, b) returns an x that satisfies every equation of L y = b and U x = y (for some y) up to ((1+2^-53)^n - 1) times the sum of the absolute values of the terms of that equation plus an explicit underflow term, whenever x is finite; so |L U x - b| <= ((1+2^-53)^(2n) - 1) |L||U||x| plus underflow. Holds for dense and sparse storage; the only exception is Singular.",
  "all sizes n > 0, all finite factors and right-hand sides in doubles, both storages",
  "all doubles; error bounds relate the computed to an unknown exact result",
  ["src/lib/LU.inl: solve_lu"])

p("C75","Backward stability of the LU decomposition",
  "On IEEE doubles, doolittle (dense and sparse) returns factors or throws Singular; with finite factors and pivots up to 2^1022 all multipliers are at most 1 in absolute value, and L U agrees with the row-permuted matrix up to ((1+2^-53)^(n+1) - 1) |L||U| plus an explicit underflow term. Solving A x = b with these factors, the permutation matrix and solve_lu leaves a residual bounded by the errors of decomposition and substitution. (U is not exactly upper triangular on doubles: refuted.)",
  "all sizes n > 0, all matrices and right-hand sides of doubles, both storages",
  "all doubles; rounding errors accumulate over three nested loops with data-dependent row exchanges",
  ["src/lib/LU.inl: doolittle, solve_lu"])

p("C76","The Poisson program approximates the Poisson equation",
  "If u solves u_xx + u_yy = f on the rectangle spanned by the grid with u = b on its boundary and fourth derivatives bounded by Mx and My, then the solution of the system built by the finite difference program is within (Mx H^2 + My K^2)/12 * X(W-X)/2 of u at every grid point (second order in the steps), and the numbers written by the program are within that bound plus an explicit multiple of the tolerance whenever fewer sweeps than the limit are reported. The number of grid points computed from width and step in doubles is n+1 when the width is exactly n steps, and n or n+1 when it is n steps up to a quarter step. (For the nearest double of a decimal or fractional step it can be n, losing the boundary column: refuted.)",
  "all grids, steps, right-hand sides, boundary values, weights, tolerances and smooth solutions; all doubles for the point count",
  "relates the output to an unknown solution of a differential equation, for all grids",
  ["examples/poisson/fdm.cpp: main"])
p("C77","The heat program approximates the heat equation",
  "If u solves u_t = k (u_xx + u_yy) + f with 0 <= k <= kmax, u = t0 at time 0 and u = b on the boundary, with |u_tt| <= Mt and fourth space derivatives bounded by Mx and My, then at every grid point and time t the solution of the system built by the heat program is within (Mt HT/2 + kmax (Mx HX^2 + My HY^2)/12) t of u, for every time step, and the numbers written by the program are within that bound plus an explicit multiple of the tolerance whenever fewer sweeps than the limit are reported.",
  "all grids, time steps, conductivities, sources, initial and boundary values, weights, tolerances and smooth solutions",
  "relates the output to an unknown solution of a differential equation, for all grids",
  ["examples/heat/main.cpp: main"])

p("C78","Quadrature error for smooth integrands",
  "For every Gauss rule, if some polynomial of the rule's degree approximates the integrand within d on the whole standard simplex, eval returns a number within 2.1 d + 2e-15 (sum of the polynomial's |coefficients|) of the integral. On an interval of length h the o-point line rule has error at most 2.1 M h^(2o+1)/(2o)! plus the error of the decimal tables, where M bounds the derivative of order 2o of the integrand.",
  "all integrands, polynomials, intervals and rules",
  "quantifies over all functions; the integral and the best approximation are not computable in a test",
  ["src/lib/quadrature/GaussLegendreQuadratureFactory.inl", "src/lib/quadrature/Quadrature.inl: eval"])

p("C79","The finite element program approximates the solution of the differential equation",
  "On a generated mesh with square cells of width h and with order 1, for every source f, boundary values g and smooth u with -u_xx-u_yy = f and u = g on the boundary, the exact solution of the assembled system is at every node within ((Mx+My) h^2/12 + (Fx+Fy+Fd) h^2/24 + 7 EPS/h^2) X(W-X)/2 of u, where Mx, My bound the fourth derivatives of u and Fx, Fy, Fd second derivatives of f; the load of an interior node is h^2 times the mean of f over the midpoints of its six edges. With CG or preconditioned CG the values in the vertex file obey the same bound with 1.1e-4/h^2 added (2.1e-4 on the boundary) whenever fewer than 1024 steps are reported, and preconditioned CG always does so for at most 1024 nodes and a nonzero right-hand side.",
  "all grid sizes, extents, origins, sources, boundary values, smooth solutions and drop tolerances",
  "relates the output to an unknown solution of a differential equation, for all grids",
  ["examples/poisson/fem.cpp: handleMesh", "src/lib/mesh/HyperCube.inl: generate"])

p("C80","Jacobi and SOR on doubles: what stopping by the tolerance guarantees",
  "In double arithmetic, when jacobi or sor reports fewer steps than allowed, then unless an iterate is not finite or the square of the last update overflows, the last update is at most about eps in every component (sqrt(((1+2^-53) eps^2 + 2^-1074)/(1-2^-53)^3)), the residual of every equation of the returned vector is at most the last update times the off-diagonal row sum plus a rounding term of relative size (m+2) 2^-53 for m nonzero entries in the row, and for a diagonally dominant matrix the error is at most that bound divided by the dominance margin. For sor the same holds with the weight (|1-w||a_ii| + |w| times the sum right of the diagonal), if it ran at least two sweeps or the weight is 1. An overflowing update is taken for convergence.",
  "all sizes below 2^53, both storages, all finite double matrices, right-hand sides, starts, weights and tolerances up to 2^500 in absolute value",
  "rounding errors for all inputs and all iteration counts",
  ["src/lib/Iterative.inl: jacobi, sor"])

p("C81","The Poisson program in double arithmetic: distance of the written table from the solution",
  "In double arithmetic, if examples/poisson/fdm.cpp stops by its tolerance and its last two tables are finite (and their difference is below 2^400), every number it writes is within (defect on the rim) + (defect of the equations / K^2 + (Mx H^2 + My K^2)/12) X (W-X)/2 of the solution u of the differential equation. The defects are explicit: about eps times the weight terms, plus roundings of relative size 2^-53 of the sweep, the right-hand side and the two coefficients, plus the errors phi, psi with which the program evaluates the source and the boundary function. With equal steps the two coefficients are computed exactly (1 and -4).",
  "all grids with at least 3 points per direction and fewer than 2^53 points, all steps, weights, tolerances, source and boundary functions and all solutions with bounded fourth derivatives",
  "couples discretisation, iteration and rounding errors for all inputs",
  ["examples/poisson/fdm.cpp: main", "src/lib/Iterative.inl: sor"])

p("C82","The heat program in double arithmetic: distance of the written tables from the solution",
  "In double arithmetic, if examples/heat/main.cpp stops by its tolerance and the tables of its last two sweeps are finite (and differ by less than 2^400), every number it writes is within (defect of the initial and boundary values) + (defect of the equations + Mt HT/2 + kmax (Mx HX^2 + My HY^2)/12) t of the solution of the heat equation. The defects are explicit: about eps times the weight terms, plus roundings of relative size 2^-53 of the sweep and of the six computed coefficients of each equation, plus the errors with which the program evaluates conductivity, source, initial and boundary functions.",
  "all grids with at least 2 times and 3 points per direction and fewer than 2^53 points, all steps, weights, tolerances, conductivities k >= 0, sources, initial and boundary functions and all solutions with bounded derivatives",
  "couples discretisation, iteration and rounding errors for all inputs",
  ["examples/heat/main.cpp: main", "src/lib/Iterative.inl: sor"])

p("C83","setVertex/setElement replace one list entry and nothing else",
  "setVertex(i, p) and setElement(i, p) replace exactly entry i of the mesh's list; an out-of-range i is undefined behaviour; no object is changed or deleted. Afterwards the mesh can be cleared or destroyed exactly if the new object is alive and not listed a second time (otherwise an object is deleted twice), the replaced object is not freed by the mesh any more, and a valid mesh in which a vertex was replaced by a new one is rejected by validate().",
  "all meshes whose lists hold different live objects, all indices and all (non-null) pointers",
  "ownership and validity after arbitrary replacements in arbitrary meshes",
  ["src/lib/mesh/Mesh.inl: setVertex", "src/lib/mesh/Mesh.inl: setElement", "src/lib/mesh/Mesh.inl: clear", "src/lib/mesh/Mesh.inl: validate"])

p("C84","Writing through mutable iterators",
  "A loop `for(it = m.begin(); it != m.end(); ++it) *it = h(*it)` applies h exactly once to every entry of a dense matrix (of the row or column for row and column iterators), and to every stored non-zero entry of a sparse matrix, changing nothing else; single writes change one entry. A sparse matrix stores zero results explicitly. Writing through an end iterator changes no entry of a dense matrix, but leaves a value that makes later uses abort: of end iterators (dense), of at() at every position without an entry (sparse).",
  "all matrices obtainable through the public interface, all functions h, all iterators",
  "loops modify the object they iterate over; must hold for all sizes, patterns and functions",
  ["src/lib/matrix/BaseMatrix.inl: operator *", "src/lib/matrix/SparseMatrix.inl: operator *", "src/lib/matrix/SparseMatrix.inl: internal_at"])

p("C85","Incomplete LU of M-matrices",
  "For a sparse square matrix whose off-diagonal entries are not positive, whose row sums are not negative and whose row sums up to the diagonal exceed epsilon (possibly after multiplying rows by -1), ilu0() never throws: it returns factors whose pivots are at least the row sum up to the diagonal, whose off-diagonal entries are not positive and whose product dominates the matrix. solve() with the factors succeeds for every right-hand side and keeps nonnegative right-hand sides nonnegative. The matrix of the finite difference example is of this kind on every grid.",
  "all sizes, sparsity patterns and entries of such matrices, over every ordered field",
  "existence of all pivots depends on every earlier row; no finite test covers all patterns",
  ["src/lib/LU.inl: ilu0", "src/lib/LU.inl: solve"])

p("C86","Cuthill-McKee numbers breadth first by increasing degree",
  "cuthill_mckee(m) numbers the non-empty rows exactly by the rule of Cuthill and McKee: the next row is the one of least degree (smallest index on ties) among the not yet numbered neighbours of the earliest numbered row that still has such neighbours, and the row of least degree of all remaining rows if there is none. The rule determines the numbering. A tridiagonal matrix (no zeros on its three diagonals) whose rows and columns were renumbered by any permutation is tridiagonal again after permutate() with the result, for both variants.",
  "all square sparse matrices, every number type with a lawful zero test; all permutations",
  "holds for every pattern and every visiting history; tests fix a few small graphs",
  ["src/lib/matrix/MatrixOrder.inl: cuthill_mckee", "src/lib/matrix/MatrixOrder.inl: r_cuthill_mckee"])

p("C87","determinant() on doubles is the determinant of a nearby matrix",
  "For an n x n matrix of finite doubles of modulus at most 2^e with 2^(e+n) <= 2^1022, determinant() (dense, fixed-size and sparse) returns a value d without abort or exception. Either d is, up to an explicit bound for the rounding of the product of the pivots, the exact determinant of a matrix whose entries differ from the given ones by at most an explicit lu_error(n,e) (of order n^2 2^(e+n-53)), or d is 0 and such a matrix (with 2^-52 more in one column) is exactly singular. If n*max(0,e+n) <= 1023 the result is finite.",
  "all sizes n, all tables of finite doubles with bounded entries, all three overloads",
  "rounding errors depend on every bit of every entry; tests compare a few determinants with a tolerance",
  ["src/lib/matrix/MatrixOperations.inl: determinant", "src/lib/LU.inl: doolittle"])

p("C88","Solving and inverting on doubles, with explicit constants",
  "For an n x n matrix A of finite doubles of modulus at most 2^e with 2^(e+n) <= 2^1022 and finite b, doolittle, P*b and solve_lu either throw the singular-matrix exception or return x with n entries; if these are finite, every equation of A x = b holds up to an explicit bound solve_error(n, e, sum |x_j|). The same holds for every finite column of inverse(m) for sparse matrices and of inverse(L,U,P) after a dense decomposition into zero matrices, with the unit vectors as right-hand sides.",
  "all sizes, matrices with bounded entries, right-hand sides; dense and sparse",
  "rounding errors and the choice of pivots depend on every bit of the input",
  ["src/lib/matrix/MatrixOperations.inl: inverse", "src/lib/LU.inl: doolittle, solve_lu"])

p("C89","cholesky on doubles is backward stable and never returns garbage silently",
  "For every n x n matrix of doubles that is finite on and below the diagonal, and an output matrix of zeros of the same size, cholesky either throws the not-positive-definite exception or returns a lower triangular matrix L with zeros above the diagonal, finite entries below it and a positive finite diagonal, except that the very last diagonal entry may be a NaN. Each entry of A on and below the diagonal differs from that of the exact product L L^T by at most ((1+2^-53)^(n+7)-1) (|L||L^T|)_ij plus an explicit underflow term. There is no premise about overflow.",
  "all sizes, all tables of doubles finite on and below the diagonal, dense and sparse storage",
  "rounding, overflow and the sign tests depend on every bit of every entry; tests factor a few small integer matrices",
  ["src/lib/LU.inl: cholesky"])

p("C90","cholesky on doubles succeeds on safely positive definite matrices",
  "Let A be a symmetric n x n matrix of doubles of modulus at most 2^e (n <= 2^40, -1000 <= e <= 1000) such that every symmetric real matrix whose entries differ from those of A by at most the explicit chol_error(n,e) (of order n 2^(e+2-53)) is positive definite. Then cholesky with an output matrix of zeros does not throw; the factor is finite, lower triangular with a positive diagonal, and every entry of L L^T is within chol_error(n,e) of A. Hence the not-positive-definite exception (or a NaN) only occurs for matrices that have an indefinite or semidefinite matrix within chol_error. In particular it succeeds on symmetric matrices whose diagonal exceeds the sum of the moduli of the other entries of the row by more than n chol_error(n,e).",
  "all sizes up to 2^40, all such matrices, dense and sparse storage",
  "whether rounding makes a pivot negative depends on all entries; tests factor a few small integer matrices",
  ["src/lib/LU.inl: cholesky"])

p("C91","LU decomposition, determinant, linear systems and inverse on doubles succeed on safely nonsingular matrices",
  "Let A be an n x n matrix of finite doubles of modulus at most 2^e, -1074 <= e, e+n <= 1022, such that no real matrix whose entries differ from those of A by at most lu_error(n,e) + 2^-52 is singular (for instance because A has an inverse Y with n (lu_error + 2^-52) times the largest row sum of |Y| below 1). Then doolittle does not throw; all factors are finite, |l_ij| <= 1, |u_ij| <= 2^(e+n), every pivot (the last one included, which the code does not test) exceeds 2^-52, and the rows of L U are those of A up to lu_error(n,e). determinant() returns the determinant of a nonsingular matrix within lu_error of A up to the rounding of the last product, never the 0 of the singular case. Solving A x = b with solve_lu does not throw; if there is room (s + n + n (max(0,e+n) + n + 52) <= 1022 for right hand sides of modulus at most 2^s, so for small matrices), the solution is finite, solves every equation up to solve_error and differs from the exact solution Y b by at most solve_error times the row sums of |Y|. inverse() then returns a finite matrix whose columns solve A x = e_c up to solve_error.",
  "all sizes, all such matrices and right hand sides, dense, fixed and sparse storage",
  "whether rounding makes a pivot tiny and whether a substitution overflows depend on all entries; tests solve a few small systems",
  ["src/lib/LU.inl: doolittle, solve_lu", "src/lib/matrix/MatrixOperations.inl: determinant, inverse"])

p("C92","Quadrature in double arithmetic",
  "On doubles the quadrature factory stores, for every supported (dimension, order), the doubles nearest to the decimal tables: points and weights are finite and differ from the exact tables by at most one unit roundoff, and all points lie in the standard simplex. If the function handed to eval returns, at these points, finite doubles within d of a real function g, and some polynomial of the degree of the rule with coefficients c is within t of g on the simplex, then eval returns a finite double within 1.2 d + 2.3 t + 4e-15 (sum of |c|) + 5*2^-1075 of the integral of g, as long as the sum of |c|, d and t stay below 2^999. A function with nonnegative values never gets a negative result, except with the third triangle rule.",
  "all supported rules, all functions on doubles and all integrable real functions, all error levels",
  "rounding errors of tables, function values, products and sums add up over all possible integrands; tests compare a few integrals with a tolerance",
  ["src/lib/quadrature/GaussLegendreQuadratureFactory.inl: GaussLegendreQuadratureFactory", "src/lib/quadrature/Quadrature.inl: eval, eval_index"])

p("C93","Jacobi and SOR converge and stop in double arithmetic",
  "For finite double data of order n < 2^53, a matrix with at most m nonzero entries per row whose off-diagonal row sums are at most q times the diagonal entry (q <= 1), an exact solution of size at most Z and a start within e0 of it, none of them near the largest double: Iterative::jacobi always returns normally, every iterate is finite, and the vector returned after k sweeps is within c^k e0 + floor of the exact solution in every component, where c = q (1+u)^(m+2) has to be below 1 and floor = (((1+u)^(m+2) - 1)(1 + 2q) Z + an underflow term) / (1 - c). It returns at most one sweep after the bound has fallen to about eps / (2 sqrt n); if the tolerance is above the limiting accuracy the number of sweeps is bounded no matter how many are allowed. The same holds for Iterative::sor with every weight w for which |1-w| (1+u)^3 + |w| (1+u)^2 c < 1 (in particular Gauss-Seidel), with the corresponding floor, if e0 bounds the solution too. Dense and sparse matrices.",
  "all orders, all double matrices of the class, right-hand sides, starts, weights, tolerances and step limits",
  "convergence up to rounding is a statement about all sweeps and all matrices; tests run a few systems to a tolerance",
  ["src/lib/Iterative.inl: jacobi, sor", "src/lib/Iterative.h: Iterative"])

p("C94","The triangle Simplex is accurate in double arithmetic",
  "For Simplex<double,2> objects of any history whose corner coordinates are finite doubles of modulus at most 2^e (0 <= e <= 400), with the unit w = 2^-53 (2^e)^2 and A twice the exact signed area: prepare() always succeeds and keeps the corners; determinant() is finite and within 450 w of A, volume() is finite and within 250 w of |A|/2, for every triangle, degenerate ones included. toGlobal() of coordinates of modulus at most c is within 20 * 2^-53 * 2^e * c of the exact point. If |A| >= 1000 w, toLocal() of a point in the coordinate range with exact barycentric coordinates l is finite and within 1000 w (1 + |l|) / |A| of them; if |A| >= 4000 w, toLocal(toGlobal(l)) for l in the reference triangle is within 10000 w / |A| of l; gradient(c) is within 2000 w 2^e / A^2 of the exact gradient of barycentric coordinate c. diameter() is within 6 * 2^-53 L + 2^-529 of the length L of the longest edge, for every triangle. faceCenter(i) is within 3 * 2^-53 * 2^e of the midpoint of the two other corners.",
  "all corner coordinates, all points, all local coordinates, all object histories",
  "rounding errors and the small-pivot cut-off in the determinant act differently on every triangle; tests compare a few well shaped ones",
  ["src/lib/Simplex.inl: prepare, volume, determinant, gradient, toLocal, toGlobal", "src/lib/Simplex.h: Simplex", "src/lib/matrix/Matrix.inl: determinant"])

out = os.path.join(os.path.dirname(os.path.abspath(__file__)), "..", "properties.jsonl")
with open(out, "w") as f:
    for q in P:
        f.write(json.dumps(q) + "\n")
print(len(P))
