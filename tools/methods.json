{
 "C01 C02 C03 C04 C08": "CRS storage (values, columns, row pointers, shared zero) and the three iterators; representation invariant, abstraction to functions position->value, induction over histories.",
 "C05 C06 C07 C09 C10 C11 C12 C13 C14 C15": "operators, products, constructors and aggregates on the CRS model; simulation against the entrywise specification, refutations by computed witnesses.",
 "C16 C17 C18 C19 C20 C21 C63 C64 C65": "flat row-major storage and its iterators; injectivity of the index, list induction.",
 "C22 C23 C24 C25 C26 C27 C62": "vectors and sets as lists; list induction, separate models of aliased calls.",
 "C28 C29 C30 C31 C32": "loops over the matrix interface; loop invariants; Hilbert inverse by a telescoping identity for binomials.",
 "C33 C34 C35": "queue-based ordering on the CRS model; search invariant with the set of visited rows; permutation algebra.",
 "C36 C37 C38 C39 C40 C41 C42": "all loops of the factorizations; loop invariants over an (ordered) field, own permutation-sum determinant (DetSpec.v) with multiplicativity and Laplace expansion proved.",
 "C43 C44": "both solvers as fuelled loops; residual invariant, conjugacy induction in an inner-product space over an ordered field.",
 "C47 C48 C49": "2x2 case of all loops; field identities with the code's pivoting case split.",
 "C50 C51 C66": "pools of vertices, elements, edges; induction over the build program and over elements/faces with an explicit graph invariant.",
 "C52": "state machine of handles and data blocks; invariant that counts equal the number of live handles, for every history.",
 "C53": "generation loops on the mesh model; closed form of the vertex grid and triangles, geometric tiling proof over an ordered field.",
 "C54 C55": "all switch branches; ring identities; derivatives as derivable_pt_lim over the reals.",
 "C56": "prepareMesh loops on pools; invariant relating added vertices to faces.",
 "C57": "rule tables and evaluation loop; exact rational bounds on moments, transferred to the Riemann integral.",
 "C58": "the writer as a token stream; reading it back with an independent reader.",
 "C59": "getline, skipWS, number lexing, iterator arithmetic; induction on text.",
 "C60": "loops over the parsed shape; reduction to build programs of C50.",
 "C61": "64-bit arithmetic; induction.",
 "C67": "assembly loops as a list of writes, compared with the rows of the scheme; discrete maximum principle (first maximum in storage order); existence from uniqueness by elimination; defect of an SOR iterate from its last update plus stability bound X(W-X)/2. Convergence: rim = level 0, inside = level 1 of the block theorem for SOR, negated rows are symmetric positive definite by row sums and the maximum principle.",
 "C68": "as C67, with the time level as the smaller index in the maximum principle; comparison function linear in time. Convergence: one level per time step (two when the conductivity vanishes somewhere), rows scaled by 1/k.",
 "C69": "row loops as folds giving an attained upper (lower) bound; Cauchy-Schwarz and Minkowski over any ordered field with square roots.",
 "C70": "output loops as folds over the iteration theorems; splitting the text at blanks inverts the writer; decimal printing of indices is injective.",
 "C71": "loop invariants for assembly and elimination against entry-wise sums; element energy = quadrature of a squared gradient (Jensen for the negative-weight rule) => positive definite by connectivity; injective => solvable; stencil computation on the grid; CG theorems C43/C44 for the solvers; gradients compared by the normality of the element map.",
 "C46": "a sweep as a recursion on the row, energy identity per coordinate step (drop (2/w-1) a_ii delta^2); for convergence: the residual after a sweep is a combination of the updates, so the energy drops by a fixed fraction (no compactness), Bernoulli bound for q^k; also for matrices in levels (block triangular with SPD diagonal blocks after row scaling) by a weighted sum of the block energies.",
 "C45": "sweeps as loops; fixed-point and contraction arguments, energy identity.",
 "C72": "binary64 operations = rounded real operations (through Flocq); integers up to 2^53 are doubles, so every rounding is exact; induction over the accumulation loops.",
 "C73": "standard model fl(x op y) = (x op y)(1+d)+e derived from the bit-level operations; induction over the accumulation loops of the model.",
 "C74": "loop invariant for the row substitutions with the backward form of the rounding error; composition of the two triangular solves.",
 "C75": "invariant over the elimination columns: residual bound for every entry of the active part and of the finished part, stable under row exchanges; rounding of 1+2^-53 to 1 for the multipliers; permutation products are exact; composition with C74.",
 "C76": "Taylor bounds for the difference quotients by four applications of the mean value theorem; stability of the scheme (C67) turns the consistency error into an error bound; triangle inequality with the C67 certificate. Point count: monotonicity of rounding between multiples of 1/4.",
 "C77": "as C76, with a first order Taylor bound in time and the stability bound of C68.",
 "C78": "from C57's exactness: bound on the sum of absolute weights, monotonicity of the Riemann integral (Coquelicot), Taylor's theorem by induction on the order.",
 "C79": "the residual of the assembled system in closed form (extending C71), Taylor bounds, the discrete maximum principle of C67 and the certificates of C43 and C44.",
 "C80": "a description of one sweep as rounded quotients, the error of each quotient by the accumulation lemma of C73, the stopping test as a bound on each component, then the residual by the triangle inequality and the error by the largest component.",
 "C81": "the assembled rows on doubles read back exactly (the fill operations touch disjoint places), the SOR stopping theorem of C80 row by row, the rounding error of the right-hand side, then the discrete maximum principle of C67 and the Taylor bound of C76.",
 "C82": "as for C81: rows read back exactly, the SOR stopping theorem of C80 row by row, rounding errors of the coefficients, then the comparison principle of C68 and the accuracy of the exact scheme (C77).",
 "C83": "list update lemmas; clear() is characterised exactly (defined iff the lists hold different live objects); validate() is followed up to the replaced entry.",
 "C84": "dense: the loop is a pass over different positions, each write is a set(); sparse: the in-place loop invariant of operator*= generalised to h; the dummy element is followed through internal_at.",
 "C85": "the exception of ilu0 is traced to a tiny pivot of the factorisation of the first rows (C39); strong induction over the rows shows that dropping fill-in only increases the row sums, so every pivot exceeds epsilon.",
 "C86": "invariant of the queue: it is a suffix of the concatenated, degree-sorted adjacency lists of the numbered rows, and everything before it is numbered; the multimaps stay sorted by (degree, index); induction along the path for the tridiagonal case.",
 "C87": "growth invariant of the elimination (entries at most double per step, multipliers at most 1, so nothing overflows) on top of the backward error invariant of C75; the exact determinant of L U by the product rule; induction for the rounding of the product.",
 "C88": "C75's residual bound with the premises (finite factors, pivots at most 2^1022) discharged by the growth invariant, and its data-dependent terms bounded by the entries; loop invariant over the columns of the inverse.",
 "C89": "loop invariant over the columns with the error of each entry (backward form of each rounded operation, the diagonal being recomputed as t/sqrt(t)); a row can only be accepted if its sum of squares is finite, so no infinite or NaN entry survives.",
 "C90": "induction over the columns: if a bordered leading block had a row of squares above the diagonal entry minus the margin, a symmetric matrix within chol_error would have a vector with a non-positive form; so all sums are bounded by 2^e, nothing overflows and every pivot is positive.",
 "C91": "a column without acceptable pivot, or a pivot of modulus at most 2^-52, could be set to 0 by a change of one column of at most 2^-52, which together with the rounding errors gives an exactly singular matrix within the margin (determinant of the product of the modified factors). The substitutions are bounded by powers of 2: each step multiplies the largest value by at most 2^(max(0,e+n)+n+52). The criterion and the forward error follow from Y (A+E) = I + Y E.",
 "C92": "every literal is z/10^k with z and 10^k below 2^53, so the quotient of two exactly represented integers is the nearest double (C92_literals) and the double tables of the model are those of the compiled program. Standard rounding analysis of the accumulation (at most 4 terms), plus the perturbation of a polynomial of degree at most 5 under a change of the points by one unit roundoff, plus C57 and C78.",
 "C93": "each computed equation is finite (the accumulated row stays below 2^1000 by dot_total) and its residual is bounded by the row error analysis of C80; with diagonal dominance this contracts the error by c up to a constant, within one sweep for SOR because errors never grow. The stopping test cannot be NaN because differences of two near iterates are finite, and it succeeds once the bound on the sum of squares is below the rounded square of the tolerance. Induction over the sweeps.",
 "C94": "the determinant comes from doolittle on the rounded edge matrix: C87 gives a matrix within 49 * 2^-53 * 2^e of it whose determinant is computed (or, if a pivot is below epsilon, a singular one), so the value is near the exact one. The reciprocal times the computed determinant is 1 up to 1.1 * 2^-53, hence the computed local coordinate times the computed determinant is within 51 w of Cramer's numerator; comparing with A gives the bound. Absence of overflow from the range of e. The gradient is one product of the same kind. Every squared edge is computed up to 4.1 * 2^-53 and 2.1 * 2^-1075, the maximum inherits the bound and the root halves it, which gives the diameter."
}