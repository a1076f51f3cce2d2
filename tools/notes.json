{
 "C01": {
  "note": "All histories of set/linear_set, from a new matrix and from any constructed one; out-of-range accesses abort. Writing -0.0 reads back +0.0 (norm0)."
 },
 "C02": {
  "note": "Counts are exact after every history of writes and for every matrix whose stored entries are nonzero. Outside the statement: scaling that underflows stores zeros (refuted theorem for doubles).",
  "status": "proved"
 },
 "C03": {
  "note": "Exactly the nonzero entries, row-major, once each; for any loop body."
 },
 "C04": {
  "note": "Rows fully. Columns: complete case analysis; an all-zero column of a non-empty matrix aborts (refuted)."
 },
 "C05": {
  "note": "+ - += -= on distinct objects fully; A += A fully; A -= A refuted (does not give 0)."
 },
 "C06": {
  "note": "Correct under the stated guard on erased entries (followed by an entry of A in the row, or in the last row with entries, or preceded by a kept entry with a non-empty next row); outside it wrong values / wrapped indices / unreadable matrix (refuted)."
 },
 "C07": {
  "note": "Any number type, with the exact-field corollary."
 },
 "C08": {
  "note": "Erased matrix content fully; returned iterator's row() wrong when the erased entry was alone in its row (refuted)."
 },
 "C09": {
  "note": "Correct when column counts agree; refuted otherwise (column count not exchanged)."
 },
 "C15": {
  "note": "sum, average, trace, min fully; max() refuted for matrices with no entry >= numeric_limits::min()."
 },
 "C17": {
  "note": "resize is a no-op apart from argument checks for sparse and dense matrices: the expectation is refuted for both."
 },
 "C18": {
  "note": "Any number type; DenseMatrix and FixedMatrix; histories of set/linear_set from any constructed matrix."
 },
 "C19": {
  "note": "Equal shapes and different sizes fully; equal size but different shape is accepted and combined in storage order (refuted). A *= *it (factor aliasing an entry) is exactly characterised and refuted."
 },
 "C20": {
  "note": "Entries for any number type in the code's summation order; (AB)^T = B^T A^T and associativity over a field. FixedMatrix::conjugate/adjugate cannot be instantiated and are not modelled."
 },
 "C21": {
  "note": "All three traversals, for arbitrary loop bodies in the all-entries case; writing through iterators."
 },
 "C22": {
  "note": "All operators, also with target and operand the same object. That operands stay unchanged and that a throwing operator changed nothing is by construction of the model (the size check precedes every write)."
 },
 "C23": {
  "note": "dot/magSqr/mag for any number type; symmetry, linearity over a field; normalized() over an ordered field with square roots (reals)."
 },
 "C24": {
  "note": "min fully; max() refuted when no entry reaches numeric_limits::min()."
 },
 "C25": {
  "note": "Fixed vectors: slice followed by zeros; dynamic vectors always abort (refuted)."
 },
 "C26": {
  "note": "Exact effect of an aliased scalar for + - *; refuted as a value semantics; /= is right."
 },
 "C27": {
  "note": "swap is std::vector::swap and not separately proved."
 },
 "C31": {
  "note": "Exact arithmetic; FixedMatrix has no unitary check that can be instantiated."
 },
 "C32": {
  "note": "The source names undefined types DynamicMatrix/Matrix in the conversion header; the model reads them as DenseMatrix."
 },
 "C36": {
  "note": "Sparse overload in full; dense overload for zero output matrices, with the exact effect on other outputs; refuted for outputs that are not zero (which is what inverse(m) passes). The singularity exception is thrown only if changing one column by at most epsilon per entry makes the matrix singular, hence never for matrices with a sufficiently small inverse (C36_well_conditioned)."
 },
 "C37": {
  "note": "SPD in full, for a zero output matrix; symmetric with non-zero leading minors: decides definiteness. Refuted on [[0]] (0/0) and for a dirty output matrix."
 },
 "C38": {
  "note": "Dense and sparse; which exception on which shapes; thresholds |x| <= eps as in the code."
 },
 "C39": {
  "note": "Pattern of A = its non-zero entries, diagonal non-zero, L and U start as zero matrices."
 },
 "C40": {
  "note": "Lower factor in full; upper factor refuted at 1x1 (1/u^2) and 3x3."
 },
 "C41": {
  "note": "Exact for epsilon 0 for all three matrix types; for positive epsilon the determinant, or 0 for matrices within epsilon of a singular one; exact for well-conditioned matrices; refuted on diag(2^-53,1)."
 },
 "C42": {
  "note": "Sparse in full; dense characterised exactly and refuted (P starts as a copy of m); inverse(L,U) for unit diagonals, refuted otherwise. For well-conditioned matrices the sparse inverse always succeeds and is the inverse."
 },
 "C43": {
  "note": "Certificate, shape errors and termination proved for both solvers over every ordered field. Refuted: the count for maxIter=0 is 1; an exact start gives NaN for doubles (0/0)."
 },
 "C44": {
  "note": "pcg in full (any SPD preconditioner, and the one from CG::jacobi). cg proved for n <= 2 and refuted for n = 3: it builds the direction from the old residual instead of the old direction."
 },
 "C45": {
  "note": "Exact run, stopping rule, fixed point, certificate, convergence for dominant systems; safety for any number type. Refuted: a zero diagonal with non-zero numerator returns an infinite vector as converged. For strictly dominant systems the tolerance is an error bound ((1-q)|y-s| <= q eps), the number of sweeps is bounded and the iteration ends by itself (C45_stop, C45_terminates; same for Gauss-Seidel)."
 },
 "C46": {
  "note": "Every sweep but the first is textbook SOR (all of them when x0=0 or w=1). Refuted: the first sweep mixes with 0 instead of x0, so solutions are not fixed and a non-solution is reported converged. Convergence theorems hold for every start (counted from the first sweep). Gauss-Seidel on strictly dominant systems: error bound at the stop and sweep count (C46_gauss_seidel_stop)."
 },
 "C47": {
  "note": "All maps, matrices and the volume for every triangle, with the exact condition under which the code treats a triangle as degenerate. Refuted for that case: with epsilon>0 a thin triangle has volume 0 depending on the corner numbering.",
  "status": "proved"
 },
 "C48": {
  "note": "Gradients, face centres and outward unit normals for every non-degenerate triangle; Math::normal in every dimension. Refuted: an out-of-range face index is undefined behaviour instead of an abort.",
  "status": "proved"
 },
 "C49": {
  "note": "diameter() proved. center() and outerRadius() refuted: the code multiplies by the determinant instead of dividing and forgets corner 0; proved what they return instead."
 },
 "C50": {
  "note": "All build histories (add/mark vertex, add element of three distinct vertices) followed by setupNeighbors: succeeds iff no face has three owners, and then edges and neighbour slots are exact and symmetric; a second call changes nothing. Adding elements after a first setupNeighbors leaves stale edges (refuted). Accessors by number: C50_access.",
  "status": "proved"
 },
 "C51": {
  "note": "Flag after = flag before or lies on a face with one owner; nothing else changes."
 },
 "C52": {
  "note": "All histories of handle operations outside the exact set of forbidden ones (self-assignment of a sole handle, use of a moved-from handle: refuted, undefined behaviour). clear() leaks its edges and leaves them dangling (refuted)."
 },
 "C53": {
  "note": "Counts, positions, neighbourhood, flags, equal area, exact tiling for all counts and sizes over any ordered field. The tiled rectangle is s0*e1/e0 by s1*e0/e1: the requested one iff e0=e1 (refuted in general for e0<>e1)."
 },
 "C54": {
  "note": "Nodal basis, partition of unity and polynomial reproduction for (1,1), (2,1), (2,2), (3,1) over any ordered field; (1,2) has functions 1 and 2 exchanged and a fourth DOF that aborts; (2,3) and (3,2) always abort (all refuted). C54_tables: with ten node values both dead tables would be nodal, so only DOF is wrong."
 },
 "C55": {
  "note": "Derivatives in the sense of the standard library's derivable_pt_lim over the reals for every usable pair. With node values: all but gradient for (2,1) (stray factor, refuted); node values do not form the linear combination of the functions (refuted). The dead order-3 second derivative has local[1] instead of local[0] (refuted with ten node values)."
 },
 "C63": {
  "note": "Non-empty lists fully; an empty list is undefined behaviour (refuted).",
  "status": "proved"
 },
 "C65": {
  "note": "max() refuted for matrices with no entry >= numeric_limits::min()."
 },
 "C66": {
  "note": "Full, over any ordered field for the area test (the threshold is the code's numeric zero test)."
 },
 "C58": {
  "note": "Proved by reading the written token stream back, for all prepared triangle meshes and any mesh whose elements have 3 (6) DOF vertices. Refuted: empty point data is UB, the gradient array announces 4 components but has 2, unprepared meshes get offsets without connectivity. Number formatting and stream failure are not modelled.",
  "status": "proved"
 },
 "C60": {
  "note": "tinyobj's parsing and the float->T cast are not modelled: the theorems start from its parsed shapes."
 },
 "C56": {
  "note": "prepareMesh of order 1 and 2 on every valid triangle mesh after setupNeighbors; the K=1 branch is not modelled.",
  "status": "proved"
 },
 "C57": {
  "note": "Quadrature literals are read as exact decimals and values bounded by the stated error; float rounding is not modelled. Beyond the statement: the third triangle rule has a negative weight (refuted theorem).",
  "status": "proved"
 },
 "C59": {
  "note": "Well-formed files load exactly; wrong headers, numbering and truncated lines (followed by a blank or comment) throw. Refuted: several malformed lines are accepted, unparsable or lonely first words and out-of-range references are UB. Decimal conversion (strtod) is a parameter; the iostream lexing is modelled."
 },
 "C28": {
  "note": "Any number type for dense, exact zero tests for sparse; all shapes."
 },
 "C29": {
  "note": "All shapes and all diagonals k (including beyond the matrix)."
 },
 "C30": {
  "note": "hilbert(n) in full. inv_hilbert(n) is the exact inverse as long as no intermediate size_t product overflows (stated bound); refuted beyond it (overflowing n exhibited)."
 },
 "C33": {
  "note": "Always terminates and returns n indices: the non-empty rows once each, then zeros; hence a permutation iff no row is empty (refuted otherwise). Reverse variant = reverse; non-square throws."
 },
 "C34": {
  "note": "All permutations and matrices; any number type."
 },
 "C35": {
  "note": "permutate(v,p) uses the inverse permutation of permutate(m,p): refuted in general, proved for involutions and with the inverse permutation for vectors."
 },
 "C61": {
  "note": "factorial and sign_pow in full; binom exact when no intermediate product overflows and k<=n; refuted: k>n and overflowing intermediates."
 },
 "C10": {
  "note": "Any number type (conjugation as an abstract involution)."
 },
 "C11": {
  "note": "Entries for any number type in the code's summation order; associativity and unit over a field."
 },
 "C12": {
  "note": "Any number type; both sides."
 },
 "C13": {
  "note": "Any number type with the code's ==."
 },
 "C14": {
  "note": "Any number type."
 },
 "C16": {
  "note": "Row-major linear index, any number type."
 },
 "C62": {
  "note": "Any number type."
 },
 "C64": {
  "note": "Any number type."
 },
 "C67": {
  "note": "Exact arithmetic. Parameters of main() are quantified (XC, YC are inputs of the model); BOUNDARY_MODE 0 only, console output not modelled, data file as numbers. C67_tolerance_refuted records that the tolerance itself is not an error bound (a finding, not part of the claim).",
  "status": "proved"
 },
 "C68": {
  "note": "Exact arithmetic. BOUNDARY_MODE 0 only; the reserve argument of the matrix constructor and the console output are not modelled."
 },
 "C69": {
  "note": "Proved for max_norm2. min_norm2 and cond of a sparse matrix look only at the stored (non-zero) entries and count a row without entries with the largest double, so they depend on the representation (C69_min_norm2_refuted)."
 },
 "C71": {
  "note": "Proved: system, elimination, symmetry, positive definiteness, unique solvability, five-point scheme on square cells, solver certificates, outputs. Refuted: the element gradients use J^-1 instead of its transpose, so the discretisation is right iff J is normal (C71_normal; wrong value on the fan); EPS drops the load of fine meshes; the order 2 estimate ignores four of six node values; a mesh without vertices aborts."
 },
 "C72": {
  "note": "Proved for all sizes; C72_limit_refuted shows that the 2^53 bound cannot be dropped.",
  "status": "proved"
 },
 "C73": {
  "note": "Proved as stated. Refuted: v / scalar multiplies by the rounded reciprocal (C73_scalar_division_refuted), mag overflows and underflows for representable norms (C73_mag_refuted).",
  "status": "partial"
 },
 "C74": {
  "note": "Row-wise and combined residual bounds for dense and sparse storage.",
  "status": "proved"
 },
 "C75": {
  "note": "Proved for both overloads; for bounded entries C75_no_overflow_* discharges the premise lu_usable. C75_upper_refuted: the entries of U below the diagonal keep rounding residues.",
  "status": "partial"
 },
 "C76": {
  "note": "Exact real arithmetic for the error bounds, doubles for the point count. C76_count_refuted: with the double nearest to 1/93 the program uses 93 instead of 94 points (a finding beyond the claim).",
  "status": "proved"
 },
 "C77": {
  "note": "Exact real arithmetic.",
  "status": "proved"
 },
 "C78": {
  "note": "Exact real arithmetic on the decimal tables of the code.",
  "status": "proved"
 },
 "C79": {
  "note": "Exact real arithmetic, order 1 and square cells only.",
  "status": "proved"
 },
 "C80": {
  "note": "The theorems say what holds when the solver stops by itself, in terms of the previous iterate; the guard `tame` excludes overflow, where the claim fails (C80_overflow_refuted).",
  "status": "proved"
 },
 "C81": {
  "note": "Hypotheses: finite tables in the last two sweeps (grid_tame), at least two sweeps or weight 1. The example meets them by computation.",
  "status": "proved"
 },
 "C82": {
  "note": "Hypotheses: finite coefficients, finite tables in the last two sweeps (grid_tame3), at least two sweeps or weight 1. The example meets them by computation.",
  "status": "proved"
 },
 "C83": {
  "note": "nullptr arguments are not modelled. The leak and the stale GlobalIndex are reported by C83_vertex_kept/C83_validate as facts about the code.",
  "status": "proved"
 },
 "C84": {
  "note": "The abort after a write through a sparse end iterator (C84_sparse_end) is a fact about the code.",
  "status": "proved"
 },
 "C85": {
  "note": "Over ordered fields (exact arithmetic).",
  "status": "proved"
 },
 "C86": {
  "note": "Empty rows are left out (C33).",
  "status": "proved"
 },
 "C87": {
  "note": "The bound contains the worst-case growth 2^n of partial pivoting.",
  "status": "proved"
 },
 "C88": {
  "note": "inverse(m) of a dense matrix is wrong already in exact arithmetic (C42), so the dense statement is about inverse(L,U,P).",
  "status": "proved"
 },
 "C89": {
  "note": "A NaN in the last diagonal entry (pivot exactly 0) really happens: [[1,1],[1,1]].",
  "status": "proved"
 },
 "C90": {
  "note": "",
  "status": "proved"
 },
 "C91": {
  "note": "",
  "status": "proved"
 },
 "C92": {
  "note": "",
  "status": "proved"
 },
 "C93": {
  "note": "",
  "status": "proved"
 },
 "C94": {
  "note": "",
  "status": "proved"
 }
}