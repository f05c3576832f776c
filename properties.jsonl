{"id": "C01", "title": "Eigenvalue sorting returns a permutation and never touches memory out of range", "statement": "SlepcSortEigenvalues / SlepcSortEigenvaluesSpecial, given a perm array holding distinct indices whose eigenvalues are laid out as real entries and adjacent conjugate pairs, terminate, access perm only inside 0..n-1, and leave in perm a rearrangement of the indices it had on entry, whatever the comparison function answers.", "quantifier": "every n, every eigenvalue array with a valid pair layout, every starting perm, every comparison function (also inconsistent ones)", "why_tests_cant": "the inner loop moves blocks of 1 or 2 entries and reads perm[j+1], perm[j-2]; a test sees a few layouts, not every interleaving of pairs and every (possibly NaN-induced, non-transitive) comparison answer", "anchors": ["src/sys/slepcsc.c:SlepcSortEigenvalues_Private", "src/sys/slepcsc.c:SlepcSortEigenvalues", "src/sys/slepcsc.c:SlepcSortEigenvaluesSpecial"]}
{"id": "C02", "title": "Eigenvalue sorting keeps conjugate pairs together, positive part order preserved", "statement": "After sorting in real scalars, the two members of each conjugate pair are still adjacent and in their original relative order.", "quantifier": "every valid layout, every comparison function, both the normal and the Special (purely imaginary values appear once) conventions", "why_tests_cant": "depends on all four block-swap cases in every sequence of moves", "anchors": ["src/sys/slepcsc.c:SlepcSortEigenvalues_Private"]}
{"id": "C03", "title": "Eigenvalue sorting is a stable sort for the criterion", "statement": "If the comparison is a total preorder, the returned order never has an entry that is strictly less preferred before a strictly more preferred one, and entries the criterion considers equal keep their input order.", "quantifier": "every total preorder, every valid layout", "why_tests_cant": "sortedness for all inputs is an inductive invariant of the insertion loop; finite inputs cannot cover it", "anchors": ["src/sys/slepcsc.c:SlepcSortEigenvalues_Private"]}
{"id": "C04", "title": "A sorting criterion with a region puts every wanted eigenvalue inside the region first", "statement": "When the criterion has a region attached, in the sorted sequence all values that the region does not report as outside precede all values reported outside; each group is ordered by the comparison.", "quantifier": "every region, map and comparison that is a total preorder, every input list", "why_tests_cant": "quantifies over arbitrary regions, spectral maps and lists", "anchors": ["src/sys/slepcsc.c:SlepcSCCompare", "src/sys/slepcsc.c:SlepcSortEigenvalues_Private"]}
{"id": "C05", "title": "The predefined comparison criteria are consistent orders and mean what their names say", "statement": "Each predefined criterion (largest/smallest magnitude, real, imaginary; target magnitude/real/imaginary; smallest positive real) is a total preorder (sign flips when arguments are swapped, transitive), gives the documented preference, and in real scalars does not distinguish the two members of a conjugate pair.", "quantifier": "all pairs and triples of (exact) eigenvalues, all targets", "why_tests_cant": "transitivity and antisymmetry over all reals; sort correctness depends on it", "anchors": ["src/sys/slepcsc.c:SlepcCompareLargestMagnitude", "src/sys/slepcsc.c:SlepcCompareSmallestPosReal", "src/sys/slepcsc.c:SlepcCompareTargetMagnitude", "src/sys/slepcsc.c:SlepcCompareSmallestImaginary"]}
{"id": "C06", "title": "Vectors taken from a vector pool are live and never shared", "statement": "If vectors are obtained from and restored to a pool in last-in first-out order, then no call reports an error, each request yields the number of vectors asked for, they are valid vectors, no two outstanding requests share a vector, and no outstanding vector is destroyed before it is restored.", "quantifier": "every sequence of get/restore calls with stack discipline, every request size, every initial guess", "why_tests_cant": "the pool grows by chaining, frees and reallocates arrays; aliasing appears only for particular histories of sizes", "anchors": ["src/sys/vec/pool.c:SlepcVecPoolCreate", "src/sys/vec/pool.c:SlepcVecPoolGetVecs", "src/sys/vec/pool.c:SlepcVecPoolRestoreVecs", "src/sys/vec/pool.c:SlepcVecPoolDestroy"]}
{"id": "C07", "title": "Region membership equals the documented set (interval and ellipse; ring in polar coordinates)", "statement": "RGCheckInside returns 1, 0, -1 exactly for interior, boundary and exterior points of the closed rectangle/ellipse scaled by the region's scale factor, and the opposite sign if the complement flag is set; for a ring, 1 means strictly between the two ellipses with angle in the sector.", "quantifier": "every parameter set accepted by the setters, every scale factor, every complex point, both values of the complement flag", "why_tests_cant": "a geometric statement on a continuum of points and parameters", "anchors": ["src/sys/classes/rg/interface/rgbasic.c:RGCheckInside", "src/sys/classes/rg/impls/interval/rginterval.c:RGCheckInside_Interval", "src/sys/classes/rg/impls/ellipse/rgellipse.c:RGCheckInside_Ellipse"]}
{"id": "C08", "title": "A region's bounding box contains the region", "statement": "For every point reported inside or on the boundary of a non-complemented region, the point lies within the box returned by RGComputeBoundingBox; for interval and ellipse every side is attained.", "quantifier": "every region type with accepted parameters, every scale, every point", "why_tests_cant": "continuum of points and parameters; the ring case involves angles", "anchors": ["src/sys/classes/rg/interface/rgbasic.c:RGComputeBoundingBox", "src/sys/classes/rg/impls/interval/rginterval.c:RGComputeBoundingBox_Interval", "src/sys/classes/rg/impls/ellipse/rgellipse.c:RGComputeBoundingBox_Ellipse", "src/sys/classes/rg/impls/polygon/rgpolygon.c:RGComputeBoundingBox_Polygon"]}
{"id": "C09", "title": "Contour points returned by a region lie on its boundary", "statement": "RGComputeContour writes all n requested entries with points of the boundary of the (scaled) region, and RGCheckInside reports them as boundary: ellipses (any n), rectangles (complex scalars, even n>=4), degenerate segments (n>=2), rings (both arcs, even n>=2), polygons (points of the edges, any n>=1, vertices not all equal). Outside these ranges of n and scalar type the claim is refuted.", "quantifier": "every bounded region with accepted parameters, every number of points in the stated range, every scale factor", "why_tests_cant": "all n and all parameters; parity of n matters", "anchors": ["src/sys/classes/rg/interface/rgbasic.c:RGComputeContour", "src/sys/classes/rg/impls/interval/rginterval.c:RGComputeContour_Interval", "src/sys/classes/rg/impls/ellipse/rgellipse.c:RGComputeContour_Ellipse"]}
{"id": "C10", "title": "Symmetry flags of regions are sound", "statement": "If RGIsAxisymmetric reports symmetry with respect to an axis then membership of a point equals membership of its mirror image (one ring with angles [1/2,1] excepted); for an ellipse the discarded half of the contour, when RGCanUseConjugates holds, consists of the conjugates of the other half (refuted for rectangles).", "quantifier": "every region type and accepted parameters, every point", "why_tests_cant": "universally quantified over points; ring end angles are a corner case", "anchors": ["src/sys/classes/rg/interface/rgbasic.c:RGIsAxisymmetric", "src/sys/classes/rg/impls/polygon/rgpolygon.c:RGPolygonSetVertices", "src/sys/classes/rg/impls/ring/rgring.c:RGIsAxisymmetric_Ring", "src/sys/classes/rg/impls/interval/rginterval.c:RGIsAxisymmetric_Interval"]}
{"id": "C11", "title": "Temporary scaling of a region is undone exactly and cannot nest silently", "statement": "RGPushScale followed by RGPopScale restores the membership test, contour and bounding box of the region exactly; a second push without pop, or a pop without push, is reported as an error, and the scale factor is always positive.", "quantifier": "every sequence of SetScale/PushScale/PopScale calls", "why_tests_cant": "a property of every call history", "anchors": ["src/sys/classes/rg/interface/rgbasic.c:RGSetScale", "src/sys/classes/rg/interface/rgbasic.c:RGPushScale", "src/sys/classes/rg/interface/rgbasic.c:RGPopScale"]}
{"id": "C12", "title": "Polygon membership agrees with edge-crossing parity; boundary reports are near an edge", "statement": "RGCheckInside on a polygon answers by the parity of the edges crossed by the upward vertical ray, for every point whose vertical distance to the crossed edges is at least the tolerance, and answers 0 only for points within the tolerance of an edge (that all edge points are reported 0 is refuted).", "quantifier": "every vertex list, every point", "why_tests_cant": "all polygons (also non-convex), all points; boundary handling is case based", "anchors": ["src/sys/classes/rg/impls/polygon/rgpolygon.c:RGCheckInside_Polygon"]}
{"id": "C13", "title": "Integration points are partitioned over the subcommunicators", "statement": "For every number of integration points and every number of partitions, each integration point is owned by exactly one partition, the counts differ by at most one and add up to n; for every row distribution, the scatter gives every partition a full copy of a vector and in reverse adds all the copies.", "quantifier": "every n>=0 and npart>0, every row distribution", "why_tests_cant": "arithmetic over all n, npart; rounding errors only show in remainders", "anchors": ["src/sys/slepccontour.c:SlepcContourDataCreate"]}
{"id": "C14", "title": "The reported derivative of a function object is its derivative", "statement": "FNEvaluateDerivative returns the derivative of the map computed by FNEvaluateFunction at every point where both succeed, for rational, exponential, logarithm, square root, inverse square root, phi functions and any combination (sum, product, quotient, composition) of function objects with any scale factors.", "quantifier": "every tree of function objects, every coefficients and scale factors, every real evaluation point in the domain", "why_tests_cant": "an analytic identity over a continuum and over unboundedly deep function trees", "anchors": ["src/sys/classes/fn/interface/fnbasic.c:FNEvaluateFunction", "src/sys/classes/fn/interface/fnbasic.c:FNEvaluateDerivative", "src/sys/classes/fn/impls/combine/fncombine.c:FNEvaluateDerivative_Combine", "src/sys/classes/fn/impls/rational/fnrational.c:FNEvaluateDerivative_Rational", "src/sys/classes/fn/impls/phi/fnphi.c:FNEvaluateDerivative_Phi"]}
{"id": "C15", "title": "Rational function objects evaluate the quotient of the two polynomials given by the user", "statement": "Evaluating a rational function object at a scalar or a square matrix gives p(x)/q(x) (q(X)^-1 p(X)) with coefficients in the documented order (highest degree first); missing numerator/denominator count as 1; division by zero is reported.", "quantifier": "every coefficient lists, every scalar and every square matrix of any size", "why_tests_cant": "all degrees, all matrices", "anchors": ["src/sys/classes/fn/impls/rational/fnrational.c:FNEvaluateFunction_Rational", "src/sys/classes/fn/impls/rational/fnrational.c:EvaluatePoly", "src/sys/classes/fn/impls/rational/fnrational.c:FNEvaluateFunctionMat_Rational"]}
{"id": "C16", "title": "Matrix evaluation of a function tree agrees with scalar evaluation on eigenvectors", "statement": "For a function object built from rational functions and dense leaf algorithms with any combination and scaling, in place or not, by diagonalization or not, if A v = lambda v then f(A) v = f(lambda) v, and no other matrix of the user is changed. For trees of rational functions f(lambda) exists whenever f(A) does and v is not zero.", "quantifier": "every function tree, every matrix, every eigenpair", "why_tests_cant": "algebraic identity over all matrices and trees", "anchors": ["src/sys/classes/fn/impls/combine/fncombine.c:FNEvaluateFunctionMat_Combine", "src/sys/classes/fn/impls/rational/fnrational.c:FNEvaluateFunctionMat_Rational", "src/sys/classes/fn/interface/fnbasic.c:FNEvaluateFunctionMat_Private"]}
{"id": "C17", "title": "A duplicated function object computes the same function", "statement": "The object returned by FNDuplicate evaluates to the same values as the original, and later changes of either do not affect the other.", "quantifier": "every function tree and scale factors, every later sequence of setter calls", "why_tests_cant": "unbounded trees and histories", "anchors": ["src/sys/classes/fn/interface/fnbasic.c:FNDuplicate", "src/sys/classes/fn/impls/combine/fncombine.c:FNDuplicate_Combine", "src/sys/classes/fn/impls/rational/fnrational.c:FNDuplicate_Rational"]}
{"id": "C18", "title": "All processes get the same f(A) in parallel matrix function evaluation", "statement": "If the function object is in synchronized mode, or all objects of its tree are in redundant mode, then after FNEvaluateFunctionMat every process holds the f(A) that a single process would compute (and an error on one is an error on all). Refuted for the remaining mix: a synchronized child below a redundant parent gives different results on different processes.", "quantifier": "every number of processes, every tree with the said modes (children of a synchronized root in any mode)", "why_tests_cant": "multi-process, arbitrary trees of mixed modes", "anchors": ["src/sys/classes/fn/interface/fnbasic.c:FNEvaluateFunctionMat_Private", "src/sys/classes/fn/impls/combine/fncombine.c:FNEvaluateFunctionMat_Combine"]}
{"id": "C19", "title": "At most two columns of a basis can be out, and changes made through them are exactly what the basis sees", "statement": "BVGetColumn succeeds iff the index is valid, the column is not already out and fewer than two are out; what is written to an obtained column is the new content of that column after BVRestoreColumn and no other column changes; restoring a column that was not obtained is an error; the object state increases iff the column was modified while out. The basis must not be resized while a column is out (the code does not check it; using the column afterwards is then a use after free).", "quantifier": "every sequence of get/write/restore calls, every number of columns and constraints", "why_tests_cant": "histories of calls with negative (constraint) indices", "anchors": ["src/sys/classes/bv/interface/bvbasic.c:BVGetColumn", "src/sys/classes/bv/interface/bvbasic.c:BVRestoreColumn"]}
{"id": "C20", "title": "Leading/active column counts of a basis always satisfy 0 <= l <= k <= m", "statement": "After any sequence of successful calls that change sizes or active columns, the numbers returned by BVGetActiveColumns satisfy 0 <= l <= k <= m, for the basis and its split views; except when BVSetActiveColumns is asked to keep the current l and set a smaller k, which is accepted and leaves l > k.", "quantifier": "every history of BVSetActiveColumns, BVResize, BVSetNumConstraints calls", "why_tests_cant": "invariant over all histories including the special values that keep the current setting", "anchors": ["src/sys/classes/bv/interface/bvbasic.c:BVSetActiveColumns", "src/sys/classes/bv/interface/bvbasic.c:BVResize", "src/sys/classes/bv/interface/bvbasic.c:BVSetNumConstraints"]}
{"id": "C21", "title": "Removing constraints preserves the regular columns", "statement": "BVSetNumConstraints with a smaller number keeps the content of all regular columns; the first constraints are kept; with a larger one the first regular columns become constraints; it fails iff the number is out of range or a column is out.", "quantifier": "every number of columns, constraints, contents", "why_tests_cant": "index shifts for all sizes", "anchors": ["src/sys/classes/bv/interface/bvbasic.c:BVSetNumConstraints"]}
{"id": "C22", "title": "Products with the inner-product matrix use the current matrix and vectors", "statement": "If the inner-product matrix is set before the first product and neither replaced nor modified afterwards, BVApplyMatrix and the inner products, norms and products of columns (BVDotVec, BVNormVec, BVDotColumn, BVNormColumn, BVApplyMatrixBV, BVDot) always use the product of the matrix with the current content of the vector or columns, whatever was modified between the calls; for storage BVCONTIGUOUS columns must be modified through BVGetColumn. More generally this holds in every history in which a product is not asked for when the same unmodified vector was the one of the latest product and since then the matrix, or the storage of the column through other means than its vector, changed; and in which a product with all columns is not asked for after changes in place of the matrix or through split views with no other change of the basis since. Outside of these conditions it fails (matrix replaced, BVScaleColumn with BVCONTIGUOUS, split views).", "quantifier": "every history of setting/modifying the matrix, modifying vectors and columns in any way, changing active columns, asking for products, for three storage types", "why_tests_cant": "there is a cache keyed on object identity and state; staleness depends on call history", "anchors": ["include/slepc/private/bvimpl.h:BV_IPMatMult", "include/slepc/private/bvimpl.h:BV_IPMatMultBV", "src/sys/classes/bv/interface/bvbasic.c:BVSetMatrix", "src/sys/classes/bv/interface/bvbasic.c:BVApplyMatrix"]}
{"id": "C23", "title": "Gram-Schmidt leaves the column orthogonal to all previous columns and constraints", "statement": "If constraints and columns 0..j-1 are orthonormal, BVOrthogonalizeColumn replaces column j by a vector orthogonal to all of them, whose sum with the combination given by the returned coefficients is the original column; the returned norm is the norm of the new column; dependence is flagged when the column is in the span of the previous ones. Holds for classical and modified variants, all refinement policies, any Hermitian positive definite inner product, also for BVOrthogonalizeVec. With an indefinite inner product and columns of products +1 or -1 the coefficients are the inner products, the norm carries a sign and the signature receives it. Refuted: the entry of H after the coefficients, which the manual says holds the norm, is never written.", "quantifier": "every inner product, dimension, number of columns/constraints, variant, refinement policy, threshold (exact arithmetic)", "why_tests_cant": "infinitely many inputs; identity of classical and modified variants and of the norm estimate is algebraic", "anchors": ["src/sys/classes/bv/interface/bvorthog.c:BVOrthogonalizeGS", "src/sys/classes/bv/interface/bvorthog.c:BVOrthogonalizeCGS1", "src/sys/classes/bv/interface/bvorthog.c:BVOrthogonalizeMGS1"]}
{"id": "C24", "title": "Inserting vectors with orthogonalization yields an orthonormal basis of their span", "statement": "BVInsertVecs with orth set leaves in consecutive columns an orthonormal set spanning the same space as the previous columns plus the given vectors, and returns its size; BVInsertConstraints does so for the constraints.", "quantifier": "every list of vectors (also dependent ones), every starting orthonormal set", "why_tests_cant": "dropping dependent vectors shifts indices; all subsets of dependent vectors", "anchors": ["src/sys/classes/bv/interface/bvfunc.c:BVInsertVecs", "src/sys/classes/bv/interface/bvfunc.c:BVInsertConstraints"]}
{"id": "C25", "title": "Coefficients returned for a selective orthogonalization refer to the selected columns only", "statement": "BVOrthogonalizeSomeColumn makes the column orthogonal to the constraints and the selected columns and returns coefficients such that original column = new column + sum of coefficient times selected columns; dependence is flagged exactly for combinations of those columns; coefficients of columns not selected are zero if the scratch area of the object was zero. Refuted in general: after a previous orthogonalization they are leftovers of it.", "quantifier": "every selection mask, every contents, every previous use of the object", "why_tests_cant": "depends on leftovers of previous calls in a work area", "anchors": ["src/sys/classes/bv/interface/bvorthog.c:BVOrthogonalizeSomeColumn", "src/sys/classes/bv/interface/bvorthog.c:BVOrthogonalizeMGS1", "include/slepc/private/bvimpl.h:BV_AddCoefficients"]}
{"id": "C26", "title": "The coefficients work buffer of a basis is large enough for every column", "statement": "For every valid column index the region of the buffer used to store its orthogonalization coefficients lies within the buffer, as long as the number of constraints is not reduced after the buffer was created (reducing it grows the number of columns but keeps the buffer).", "quantifier": "every history of resize and constraint changes and buffer use", "why_tests_cant": "memory safety over all histories", "anchors": ["src/sys/classes/bv/interface/bvbasic.c:BVGetBufferVec", "src/sys/classes/bv/interface/bvbasic.c:BVSetNumConstraints", "src/sys/classes/bv/interface/bvbasic.c:BVResize"]}
{"id": "C27", "title": "Splitting a basis gives two disjoint views that cover exactly the leading and active columns", "statement": "BVGetSplit returns views L and R such that writing column j of L (R) is writing column j (l+j) of the parent, the views do not overlap, and after BVRestoreSplit the parent sees all changes; columns of a view not restored are reported (for the left view, those with index at least the number of constraints). The basis must not change sizes between uses of the same views.", "quantifier": "every m, l, k, number of constraints, every sequence of writes through the views", "why_tests_cant": "index arithmetic with constraints for all sizes and histories", "anchors": ["src/sys/classes/bv/interface/bvbasic.c:BVGetSplit", "src/sys/classes/bv/interface/bvbasic.c:BVRestoreSplit"]}
{"id": "C28", "title": "Signature of an indefinite inner product belongs to its column", "statement": "The signature value returned by BVGetSignature for a column is the one last set for that column, also after column copies, resizes and in presence of constraints; columns never set have signature 1. Excluded, because the code gets them wrong: column copies with constraints, growing with copy, and reducing the constraints, once the signature exists.", "quantifier": "every history of signature setting, column copy, resize, constraints", "why_tests_cant": "offset by the number of constraints, all histories", "anchors": ["src/sys/classes/bv/interface/bvbasic.c:BVSetSignature", "src/sys/classes/bv/interface/bvbasic.c:BVGetSignature", "src/sys/classes/bv/interface/bvbasic.c:BVCopyColumn", "src/sys/classes/bv/interface/bvbasic.c:BVResize"]}
{"id": "C29", "title": "The modulus helper returns the exact modulus without spurious division by zero", "statement": "SlepcAbsEigenvalue in real scalars returns sqrt(x^2+y^2) for all x,y, and its internal quotient is never formed with a zero divisor.", "quantifier": "all pairs of real numbers (exact arithmetic)", "why_tests_cant": "continuum of inputs; the algorithm scales by the larger magnitude and special-cases zero", "anchors": ["include/slepcmath.h:SlepcAbs", "include/slepcmath.h:SlepcAbsEigenvalue"]}
{"id": "C30", "title": "In real scalars only regions symmetric about the real axis are accepted", "statement": "In real scalars, after any sequence of calls, RGCheckInside gives the same answer for a point and its complex conjugate for intervals, ellipses and rings (for polygons this is refuted: the setter accepts non-symmetric vertex lists).", "quantifier": "every history of calls, every point", "why_tests_cant": "all call histories and a continuum of points; the polygon check pairs vertices by index arithmetic", "anchors": ["src/sys/classes/rg/impls/interval/rginterval.c:RGIntervalSetEndpoints_Interval", "src/sys/classes/rg/impls/ring/rgring.c:RGRingSetParameters_Ring", "src/sys/classes/rg/impls/polygon/rgpolygon.c:CheckSymmetry"]}
{"id": "C31", "title": "Quadrature sums do not depend on the number of partitions", "statement": "BVSumQuadrature (into zero columns) and BVDotQuadrature return, for every number of partitions, the sums over all integration points of w_p zn_p^k times the stored solutions (respectively their inner products); BVTraceQuadrature returns the corresponding trace with one partition or one column. Refuted parts: with several partitions BVTraceQuadrature is wrong for two or more columns, and BVSumQuadrature adds to old contents instead of overwriting.", "quantifier": "every number of points, partitions, moments, block sizes, weights, points and vectors (exact arithmetic)", "why_tests_cant": "index arithmetic over five loop variables and a parallel reduction, for all sizes", "anchors": ["src/sys/classes/bv/interface/bvcontour.c:BVSumQuadrature", "src/sys/classes/bv/interface/bvcontour.c:BVDotQuadrature", "src/sys/classes/bv/interface/bvcontour.c:BVTraceQuadrature"]}
{"id": "C32", "title": "Accepted method numbers index an existing entry of the method table", "statement": "After any sequence of FN setter calls with method numbers below 16 and all children set, FNEvaluateFunctionMat never reads outside of its method table or dereferences a missing object. Refuted for the full range accepted: FNSetMethod also accepts 16, and every matrix evaluation then reads past the table.", "quantifier": "every history of setters, every function tree, matrix, number of processes", "why_tests_cant": "memory safety over all histories and trees; a test would have to hit the one bad value and the read may go unnoticed", "anchors": ["src/sys/classes/fn/interface/fnbasic.c:FNSetMethod", "src/sys/classes/fn/interface/fnbasic.c:FNEvaluateFunctionMat_Basic"]}
{"id": "C33", "title": "Evaluating only the first column of f(A) gives the first column of f(A)", "statement": "If FNEvaluateFunctionMat and FNEvaluateFunctionMatVec both succeed for the same function tree and matrix, the vector equals the first column of the matrix and A is unchanged.", "quantifier": "every tree of rational and combined functions with dense leaf algorithms, every matrix", "why_tests_cant": "separate code paths per node type; all nestings", "anchors": ["src/sys/classes/fn/interface/fnbasic.c:FNEvaluateFunctionMatVec", "src/sys/classes/fn/impls/combine/fncombine.c:FNEvaluateFunctionMatVec_Combine", "src/sys/classes/fn/impls/rational/fnrational.c:FNEvaluateFunctionMatVec_Rational"]}
{"id": "C34", "title": "phi_k(A) e_1 is obtained from the exponential of an augmented matrix", "statement": "FNEvaluateFunctionMatVec of a phi function builds an augmented matrix whose exponential contains phi_k(A) e_1 in the returned entries, including the dimension, the scaling factors and every index k.", "quantifier": "every k, every matrix and dimension, every exponential satisfying its power series (truncated at any order)", "why_tests_cant": "identity between two series for all k and all matrices", "anchors": ["src/sys/classes/fn/impls/phi/fnphi.c:FNEvaluateFunctionMatVec_Phi"]}
{"id": "C35", "title": "Orthogonalizing all columns is a QR factorization", "statement": "BVOrthogonalize, Gram-Schmidt method with a positive definite inner product: if no active column depends on the previous ones, it succeeds with orthonormal columns, leading columns untouched, and every original column is the combination of the new ones with the entries of R on and above the diagonal, diagonal positive; otherwise it stops with an error. Refuted: entries of R below the diagonal keep the caller's values; with an indefinite inner product the columns are not the factor times R.", "quantifier": "every inner product, number of leading and active columns, contents, variant, refinement policy (exact arithmetic)", "why_tests_cant": "all dimensions and contents; error exactly for dependent columns", "anchors": ["src/sys/classes/bv/interface/bvorthog.c:BVOrthogonalize", "src/sys/classes/bv/interface/bvorthog.c:BVOrthogonalize_GS"]}
{"id": "C36", "title": "Orthonormalizing a column gives a unit vector or reports dependence", "statement": "BVOrthonormalizeColumn: if the column is not in the span of constraints and previous columns, it becomes the unit vector in the direction of its component orthogonal to them; otherwise with replace the same is done with a random vector, and with a second one if the first is in the span; the flag is set exactly if the last vector tried was in the span, and then norm and column are zero. Other columns do not change.", "quantifier": "every inner product, contents, random vectors, variant, refinement policy (exact arithmetic)", "why_tests_cant": "dependent random vectors have probability zero in tests; all contents", "anchors": ["src/sys/classes/bv/interface/bvorthog.c:BVOrthonormalizeColumn"]}
{"id": "C37", "title": "Eigenpairs of the transformed operator and of the problem correspond through the back-transform", "statement": "For shift, shift-and-invert and Cayley, with or without balancing: (theta,x) is an eigenpair of the operator with theta finite (not 0 for shift-and-invert, not 1 for Cayley) exactly if (STBackTransform(theta), D^-1 x) is an eigenpair of A x = lambda B x; no finite eigenvalue is lost; the remaining values belong to infinite eigenvalues. With real scalars a conjugate pair is transformed as the complex number. Refuted for Cayley with real scalars: conjugate pairs get wrong values.", "quantifier": "every pair of matrices, shift, antishift, balancing vector and eigenvalue (exact arithmetic)", "why_tests_cant": "equivalence of two eigenproblems for all matrices and shifts", "anchors": ["src/sys/classes/st/impls/shift/shift.c:STBackTransform_Shift", "src/sys/classes/st/impls/sinvert/sinvert.c:STBackTransform_Sinvert", "src/sys/classes/st/impls/cayley/cayley.c:STBackTransform_Cayley"]}
{"id": "C38", "title": "An ST object always applies the operator of its current parameters and hands the user's matrices back", "statement": "After any sequence of covered calls (type, matrix mode, transform flag, shift, default shift, antishift, balancing, new matrices, new values in the same matrices, STSetUp, STGetOperator, STApply and transposes, STPostSolve) STApply returns inv(D)N x (with D, N of the current type, shift, antishift, matrices, balanced), the transposed calls the transposed operator, singular D gives an error; A is modified only in mode INPLACE between set-up and STPostSolve and is restored by it; no destroyed matrix is used. Refuted: changes of the configuration while A is shifted; STSetShift between STGetOperator and STSetUp; an admissible Cayley shift refused; antishift changes from or to zero after set-up (stale products, use after free); STGetOperator after a change of type overwrites the user's B; STPostSolve without set-up shifts A; transposed Cayley products in place use a conjugate.", "quantifier": "every history of covered calls, every field with 2 != 0 and involutive conjugation, every dimension, matrices and vectors (exact arithmetic, exact linear solves)", "why_tests_cant": "stateful object with shared, reference counted and modified matrices: histories are unbounded", "anchors": ["src/sys/classes/st/interface/stsolve.c", "src/sys/classes/st/interface/stfunc.c", "src/sys/classes/st/interface/stset.c", "src/sys/classes/st/interface/stsles.c", "src/sys/classes/st/interface/stshellmat.c", "src/sys/classes/st/impls/shift/shift.c", "src/sys/classes/st/impls/sinvert/sinvert.c", "src/sys/classes/st/impls/cayley/cayley.c"]}
{"id": "C39", "title": "For polynomial problems the matrices T[k] are the coefficients of the transformed polynomial", "statement": "With three or more matrices, types shift and shift-and-invert, modes COPY and SHELL: after set-up and any changes of the shift, products, transposed and conjugate-transposed products with T[k] are those of the coefficients of P(z+s), respectively z^d P(1/z+s); eigenpairs correspond through STBackTransform; the user's matrices do not change; the result does not depend on the initial content of the work array of binomial coefficients.", "quantifier": "every degree, matrices, sequence of shifts, content of fresh memory (exact arithmetic)", "why_tests_cant": "binomial identity in packed index arithmetic for every degree", "anchors": ["src/sys/classes/st/interface/stsolve.c:STMatMAXPY_Private", "src/sys/classes/st/interface/stsolve.c:STCoeffs_Monomial", "src/sys/classes/st/impls/shift/shift.c:STSetUp_Shift", "src/sys/classes/st/impls/sinvert/sinvert.c:STSetUp_Sinvert"]}
{"id": "C40", "title": "The shell matrix of a transformation reports its own diagonal", "statement": "MatGetDiagonal of the shell matrix returns the diagonal of the matrix it multiplies by, for a single matrix A + alpha I and for alpha = 0. Refuted for two matrices: for A + alpha B the diagonal of alpha A + B is returned.", "quantifier": "every matrix and alpha", "why_tests_cant": "entries for all matrices; a Jacobi preconditioner with a wrong diagonal still converges", "anchors": ["src/sys/classes/st/interface/stshellmat.c:MatGetDiagonal_Shell"]}
{"id": "C41", "title": "Basis polynomials, their derivatives and residuals are evaluated as documented", "statement": "For the monomial and both Chebyshev bases, PEP evaluates exactly the classical polynomials and their derivatives (in complex scalars and with separate real and imaginary parts), and the residual vector of an eigenpair is P(lambda)x with P expressed in that basis, whatever the contents of fresh memory. For every basis the evaluated functions are polynomials of degree k with consistent derivatives. Refuted for Legendre, Laguerre and Hermite: the evaluated polynomials are not these.", "quantifier": "every number of matrices, point, vector, content of fresh arrays (exact arithmetic)", "why_tests_cant": "recurrences for every degree; a wrong basis is self-consistent in tests that use the same routine to build the problem", "anchors": ["src/pep/interface/pepdefault.c:PEPBasisCoefficients", "src/pep/impls/peputils.c:PEPEvaluateBasis", "src/pep/impls/peputils.c:PEPEvaluateBasisDerivative", "src/pep/interface/pepsolve.c:PEPComputeResidualNorm_Private"]}
{"id": "C42", "title": "PEPLINEAR reports exactly the eigenpairs of the matrix polynomial", "statement": "With the implicit linearization and the supported options: PEPSetUp succeeds; every exact eigenpair of the operator given to the inner eigensolver, with a finite eigenvalue, yields a value and a nonzero vector that are an eigenpair of P in the chosen basis; every eigenpair of P (linear systems regular, eigenvalue not the shift) comes from one; after the solve the shift, target and basis coefficients are restored, so that another PEPSetUp gives the same operator. Refuted outside: shift-and-invert in a Chebyshev basis with degree 3 or more; shift different from the target; norm extraction with STSetTransform and a shift.", "quantifier": "every degree, dimension, matrices, basis, scale factor, shift, target, extraction, content of fresh memory (exact arithmetic)", "why_tests_cant": "equivalence of two eigenproblems of different size for all degrees and matrices; wrong options still converge", "anchors": ["src/pep/impls/linear/linear.c:MatMult_Linear_Shift", "src/pep/impls/linear/linear.c:MatMult_Linear_Sinvert", "src/pep/impls/linear/linear.c:PEPSetUp_Linear", "src/pep/impls/linear/linear.c:PEPSolve_Linear", "src/pep/impls/linear/linear.c:PEPLinearExtract_Norm"]}
{"id": "C43", "title": "The explicit linearizations have the eigenvalues and the structure of the quadratic problem", "statement": "With explicit matrices, for general, Hermitian, hyperbolic and gyroscopic quadratic problems: every eigenpair of the pencil (A,B) gives a nonzero eigenvector of the quadratic problem for the reported eigenvalue, provided a stated matrix is regular (and the eigenvalue is nonzero if gyroscopic); every eigenpair of the problem comes from the pencil; Hermitian coefficients give Hermitian A and B, gyroscopic ones a Hamiltonian/skew-Hamiltonian pair. Refuted: singular pencils for alpha, beta both nonzero; zero vector for the eigenvalue zero of gyroscopic problems.", "quantifier": "every dimension, matrices, alpha, beta, scaling factors, eigenvalue (exact arithmetic)", "why_tests_cant": "identity for all matrices; a singular pencil gives arbitrary values", "anchors": ["src/pep/impls/linear/qeplin.c", "src/pep/impls/linear/linear.c:PEPSetUp_Linear", "src/pep/impls/linear/linear.c:PEPLinearExtract_None"]}
{"id": "C44", "title": "BVMatArnoldi returns an orthonormal basis and the projected matrix", "statement": "If columns 0..k (and the constraints) are orthonormal and k < m < number of columns, BVMatArnoldi succeeds with some m' in (k,m]; columns 0..k are unchanged, columns 0..m'-1 are orthonormal, and for k<=j<m' A v_j is the combination of v_0..v_{j+1} given by column j of H (beta for the last one, besides components along the constraints). breakdown is reported exactly if the new direction vanishes: then m' is where it happened and beta = 0; otherwise m'=m, beta>0 and v_m completes the orthonormal family. Other entries of H are not touched. Refuted: m equal to the number of columns is accepted but ends in an error; when the basis fills the space, the entry of H below column m'-1 is a leftover instead of beta.", "quantifier": "every inner product, operator, constraints, orthogonalization variant, contents of columns and H, k and m (exact arithmetic)", "why_tests_cant": "relation for all operators and sizes; stale entries depend on previous contents", "anchors": ["src/sys/classes/bv/interface/bvkrylov.c:BVMatArnoldi", "include/slepc/private/bvimpl.h:BV_OrthogonalizeColumn_Safe"]}
{"id": "C45", "title": "BVMatLanczos returns a three-term recurrence for self-adjoint operators", "statement": "For a self-adjoint operator whose first k columns are mapped into the span of columns 0..k, BVMatLanczos returns orthonormal columns and real numbers with A v_j = beta_{j-1} v_{j-1} + alpha_j v_j + beta_j v_{j+1} for k<j<m' (last coefficient: beta), and for j=k the components along the locked columns in place of the first term; the same statements on breakdown as for Arnoldi. Refuted at full dimension as for Arnoldi: the last off-diagonal entry is a leftover instead of beta.", "quantifier": "every inner product, self-adjoint operator, sizes, contents of memory (exact arithmetic)", "why_tests_cant": "relation for all operators", "anchors": ["src/sys/classes/bv/interface/bvkrylov.c:BVMatLanczos"]}
{"id": "C46", "title": "The Krylov eigensolvers accept exactly the leading run of converged eigenpairs", "statement": "EPSKrylovConvergence returns kout such that every eigenvalue (or conjugate pair) before kout lies in the region, and its error estimate (and that of the left eigenvector, if requested) is below the tolerance; kout is either the end or the first eigenvalue (or first member of the first pair) which fails one of these; the region is tested on the value transformed back to the original problem; pairs are never split and both members carry the same estimate; the estimates of all positions examined (all positions if requested) are those of the convergence test.", "quantifier": "every sequence of eigenvalues, pairs, residuals, region, convergence test and option (exact arithmetic)", "why_tests_cant": "all interleavings of pairs and failures", "anchors": ["src/eps/impls/krylov/epskrylov.c:EPSKrylovConvergence"]}
{"id": "C47", "title": "EPSSolve with Krylov-Schur ends and its error estimates are those of the true residuals", "statement": "For a linear operator, ncv<=mpd, 0<nev<ncv (or nev<=ncv=N), trivial region, standard extraction and a start vector that is not in the span of the constraints: EPSSolve returns without error after at most max(1,max_it) iterations; EPS_CONVERGED_TOL is returned only with nconv>=nev, EPS_DIVERGED_ITS only after max_it iterations; the Schur vectors and constraints are orthonormal and the constraints unchanged; each of the nconv error estimates is below the tolerance; each eigenvector has norm one and, if its eigenvalue does not occur before, its residual for the deflated operator is R plus a combination of the residuals of Schur vectors locked in earlier restarts, where the estimate is the one of the convergence test for the exact norm of R. Without locking the residual is R itself. Refuted with a nontrivial region: after a breakdown without a wanted value the solver returns eigenvalue 0 with the vector zero as converged.", "quantifier": "every inner product, operator, dimension, constraints, orthogonalization variant, sizes, selection criterion, convergence test that accepts residual zero, spectral transformation, locking or not, fraction kept, LAPACK results within their contracts (exact arithmetic)", "why_tests_cant": "invariant of an iteration with restarts, for all operators; a wrong restart still converges slowly on tests", "anchors": ["src/eps/impls/krylov/krylovschur/krylovschur.c:EPSSolve_KrylovSchur_Default", "src/eps/interface/epssolve.c:EPSGetStartVector", "src/eps/interface/epsdefault.c:EPSComputeVectors_Schur", "src/sys/classes/ds/impls/nhep/dsnhep.c"]}
{"id": "C48", "title": "DSTruncate keeps a Krylov decomposition", "statement": "With an up-to-date extra row, DSTruncate to a size n' with l <= n' < n succeeds and the truncated matrix with its new extra row expresses the same vectors as before in terms of the first n' basis vectors and the residual vector, provided the discarded rows are zero in the kept columns; the leading block is unchanged and Q keeps its n rows. Refuted for n' = n, which is admitted: the extra row is lost.", "quantifier": "every size, matrix, basis", "why_tests_cant": "relation between two states of the object for all sizes; the lost row only shows in convergence", "anchors": ["src/sys/classes/ds/impls/nhep/dsnhep.c:DSTruncate_NHEP", "src/sys/classes/ds/interface/dsops.c:DSTruncate"]}
{"id": "C49", "title": "DSSort orders the eigenvalues", "statement": "After DSSort of a nonsymmetric dense solver the eigenvalues from position l on are a permutation of the previous ones in which no value is preferred to one before it, they are the diagonal of the triangular matrix, and the others are unchanged.", "quantifier": "every size, every total preorder as criterion, every matrix", "why_tests_cant": "all permutations of all sizes", "anchors": ["src/sys/classes/ds/impls/dsutil.c:DSSort_NHEP_Total"]}
{"id": "C50", "title": "Singular values from the cross product matrix", "statement": "SVDSolve with the solver cross on a standard problem returns as many values as the eigensolver has pairs; they are the square roots of its eigenvalues of A^*A (A A^* if A has more columns than rows), whichever way the transpose and the product are formed, sorted as requested. If no computed value is zero, SVDGetSingularTriplet returns orthonormal left and orthonormal right vectors, one of A v = s u and A^* u = s v holds exactly (the first unless A has more columns than rows), the defect of the other is the eigensolver residual divided by s, and SVDComputeError returns exactly this. If a value is zero, the values can be obtained but requesting vectors is an error (recorded as a finding).", "quantifier": "every matrix, size, transpose and product option, order; eigensolver: any orthonormal Ritz pairs, exact or not (exact arithmetic)", "why_tests_cant": "a relation between the outputs for all matrices and all accuracies of the inner solver", "anchors": ["src/svd/impls/cross/cross.c:SVDSolve_Cross", "src/svd/impls/cross/cross.c:SVDComputeVectors_Cross", "src/svd/interface/svdsolve.c:SVDComputeVectors_Left", "src/svd/interface/svdsolve.c:SVDGetSingularTriplet", "src/svd/interface/svdsolve.c:SVDComputeError", "src/svd/interface/svdsetup.c:SVDSetUp"]}
{"id": "C51", "title": "Singular values from the cyclic matrix", "statement": "SVDSolve with the solver cyclic on a standard problem returns exactly the positive ones among the first min(nconv,ncv) eigenvalues of the cyclic matrix, sorted as requested. If no zero eigenvalue is listed before a positive one, the singular vectors are the two parts of the eigenvector times sqrt(2), SVDComputeError is sqrt(2) times the residual of the eigenpair (absolute) or the residual divided by the eigenvalue (relative), and for exact eigenpairs the left and the right vectors are orthonormal and A v = s u, A^* u = s v. Refuted if a zero eigenvalue comes first: the vectors are those of other eigenvalues.", "quantifier": "every matrix, size, order, eigensolver result with real eigenvalues and orthonormal vectors (exact arithmetic)", "why_tests_cant": "depends on the order in which the inner solver lists its eigenvalues", "anchors": ["src/svd/impls/cyclic/cyclic.c:SVDSolve_Cyclic", "src/svd/impls/cyclic/cyclic.c:SVDComputeVectors_Cyclic_Standard"]}
{"id": "C52", "title": "Generalized singular values", "statement": "For a generalized problem the solver cross returns for each value sigma, [u;v] and x with numbers c>=0, s>0, c^2+s^2=1, sigma=c/s such that A x = c u and B x = s v exactly, v has norm one, and so has u unless sigma=0, in which case u=0; SVDComputeError is a stated multiple of the residual of A^*A x = sigma^2 B^*B x. The solver cyclic returns the positive eigenvalues (reciprocals, if the smallest values are requested) and for exact eigenpairs the same relations, unit vectors, s^2 A^*u = c B^*B x and error zero, provided no zero eigenvalue precedes a positive one.", "quantifier": "every pair of matrices with the sizes admitted, both orders, transpose and product options; eigensolver results: Rayleigh quotients (cross), exact normalized pairs (cyclic) (exact arithmetic)", "why_tests_cant": "relations for all matrices", "anchors": ["src/svd/impls/cross/cross.c:SVDComputeVectors_Cross", "src/svd/impls/cyclic/cyclic.c:SVDComputeVectors_Cyclic_Generalized", "src/svd/interface/svdsolve.c:SVDComputeResidualNorms_Generalized"]}
{"id": "C53", "title": "Hyperbolic singular values", "statement": "For a hyperbolic problem with at least as many rows as columns the solver cross returns the square roots of the absolute values of the eigenvalues of A^* Omega A, sorted as requested. If none is zero, the triplets have A v = s u exactly, right vectors orthonormal, left vectors orthonormal up to the sign of the eigenvalue in the inner product of Omega, the defect of A^* Omega u = sign s v is the eigensolver residual divided by s, and SVDComputeError returns this. Refuted for more columns than rows: for a negative sign both relations hold with the wrong sign even for exact eigenpairs.", "quantifier": "every matrix and signature, transpose and product options, order; eigensolver: any orthonormal Ritz pairs (exact arithmetic)", "why_tests_cant": "sign conventions for all matrices; the sign error needs a wide matrix and a negative direction", "anchors": ["src/svd/impls/cross/cross.c:SVDComputeVectors_Cross", "src/svd/interface/svdsolve.c:SVDComputeVectors_Left", "src/svd/interface/svdsolve.c:SVDComputeResidualNorms_Hyperbolic"]}
{"id": "C54", "title": "Matrix function solver: Krylov approximation", "statement": "MFNSolve with the Krylov solver, for every linear operator A and nonzero b: after its iterations the computed blocks form a family W of n vectors with W_0 = b/||b|| and A W = W H + beta v e_n^T, H upper Hessenberg. For every polynomial p that the function agrees with on the blocks used, the returned vector is ||b|| W p(H) e_1, and it equals p(A) b whenever deg p < n or the iteration broke down; in particular whenever ncv is at least the dimension. MFN_CONVERGED_TOL is reported only after at least two iterations and only if the iteration broke down or the last update is smaller than tol ||b||; otherwise max_it iterations were done and, with MFNSetErrorIfNotConverged, an error is raised. (That the converged vector is close to f(A) b is false, a witness is proved.)", "quantifier": "every inner product space, operator, vector, ncv, number of iterations, tolerance, function (exact arithmetic)", "why_tests_cant": "the restarted recurrence and the growing matrix have to agree after any number of restarts for every operator", "anchors": ["src/mfn/impls/krylov/mfnkrylov.c:MFNSolve_Krylov", "src/mfn/interface/mfnsolve.c:MFNSolve"]}
{"id": "C55", "title": "Matrix function solver: operator in use", "statement": "After any sequence of calls (set operator, solve, solve transpose, set dimensions, reset) a solve multiplies with the matrix of the last MFNSetOperator, and fails if there is none. MFNSolveTranspose multiplies with its transpose, provided no MFNSolveTranspose was done before the last MFNSetOperator (otherwise a stale transpose is used: refuted by a witness).", "quantifier": "every finite sequence of calls, every matrix", "why_tests_cant": "all interleavings of calls; tests set the operator once", "anchors": ["src/mfn/interface/mfnbasic.c:MFNReset", "src/mfn/interface/mfnsolve.c:MFNSolveTranspose", "src/mfn/interface/mfnsetup.c:MFNSetOperator"]}
{"id": "C56", "title": "Eigenpairs in real arithmetic", "statement": "With real scalars, EPSGetEigenpair (and EPSGetLeftEigenvector of two-sided solvers) returns for each index i the eigenvalue and vector that the solver has computed for the place perm[i], with complex conjugate pairs given consistently: the first place of a pair has the positive imaginary part, the second one the negative one, and the vector is conjugated with the value. So every returned pair (kr+i ki, xr+i xi) satisfies the eigenvalue equation and is nonzero if this holds for what the solver computed.", "quantifier": "every number of converged pairs, every mixture of real and conjugate eigenvalues in whichever order of signs, every permutation, index (exact arithmetic)", "why_tests_cant": "all arrangements of conjugate pairs and signs; tests rarely meet a solver that gives the negative imaginary part first", "anchors": ["src/eps/interface/epssolve.c:EPSSolve", "src/eps/interface/epssolve.c:EPSGetEigenpair", "include/slepc/private/bvimpl.h:BV_GetEigenvector"]}
{"id": "C57", "title": "Computed errors", "statement": "EPSComputeError in real arithmetic returns the norm of (A-lambda B)x of the complex eigenpair (for two-sided solvers the maximum with the left residual), divided by 1, |lambda| or ||A||+|lambda| ||B|| according to the type, times the norm of x for EPS_GHEP, provided |lambda| is larger than the machine precision and its imaginary part is zero or not negligible. (Refuted for smaller eigenvalues: an exact eigenpair has a nonzero error.)", "quantifier": "every matrix pair, every converged pair, error type, both signs of the imaginary part (exact arithmetic)", "why_tests_cant": "an identity for all matrices and vectors; tests only see that the error is small", "anchors": ["src/eps/interface/epssolve.c:EPSComputeError", "src/eps/interface/epssolve.c:EPSComputeResidualNorm_Private"]}
{"id": "C58", "title": "Structured problems: eigenpairs and left vectors", "statement": "For EPS_BSE and EPS_LREP (both forms) 2 nconv eigenpairs are offered: index i gives +lambda (even) or -lambda (odd) with a nonzero vector that satisfies the eigenvalue equation of the full matrix, and EPSGetLeftEigenvector gives a nonzero left eigenvector of the same eigenvalue. (Refuted for EPS_HEP and EPS_GHEP, where EPSGetLeftEigenvector fails, or for a 2x2 MATNEST changes the sign of a part of the vector.)", "quantifier": "every size, block matrices with the stated symmetry, real eigenvalues, permutation, index (exact arithmetic)", "why_tests_cant": "the relation must hold for every structured matrix", "anchors": ["include/slepc/private/epsimpl.h:EPS_GetEigenvector", "src/eps/interface/epssolve.c:EPSGetLeftEigenvector", "src/eps/interface/epssolve.c:EPSGetEigenvalue"]}
{"id": "C59", "title": "Hamiltonian problems: eigenpairs", "statement": "For EPS_HAMILT in real arithmetic 2 nconv eigenpairs are offered; each satisfies the eigenvalue equation with a vector of norm one. A real or purely imaginary lambda gives lambda and -lambda, a complex one the four values -conj(lambda), -lambda, lambda, conj(lambda) in this order, provided that a quadruple does not follow one with the same values. (Refuted without this: two of the values are lost.)", "quantifier": "every Hamiltonian matrix, mixture of real, imaginary and complex eigenvalues, permutation that keeps quadruples together, index (exact arithmetic)", "why_tests_cant": "index arithmetic over all mixtures of eigenvalue kinds; multiple quadruples are not in the tests", "anchors": ["include/slepc/private/epsimpl.h:EPS_GetEigenvector_HAMILT", "src/eps/interface/epssolve.c:EPSGetEigenvalue"]}
{"id": "C60", "title": "Filtered values", "statement": "With STFILTER, after EPSSolve exactly the computed eigenvalues inside of the interval are offered: the list of positions is permuted such that those inside come first and all others after them, and the number of converged values is the number of those inside.", "quantifier": "every number of values, every pattern of inside and outside", "why_tests_cant": "all patterns of discarded values, in particular several at the end", "anchors": ["src/eps/interface/epssolve.c:EPSComputeValues"]}
{"id": "C61", "title": "Default dimensions of eigensolvers", "statement": "Values of ncv and mpd given by the user are kept. Otherwise ncv is at most the size of the problem (half of it for EPS_BSE, EPS_LREP), at least the number of requested values (halved likewise) and larger for Krylov solvers unless it is the whole size, provided not more values are requested than exist. A request is rejected exactly if the given ncv is too small.", "quantifier": "every size, nev, ncv, mpd, kind of solver and problem", "why_tests_cant": "all combinations of given and default values", "anchors": ["src/eps/interface/epssetup.c:EPSSetDimensions_Default"]}
{"id": "C62", "title": "Block orthogonalization", "statement": "BVOrthogonalize with CHOL, TSQRCHOL or SVQB succeeds if all columns are linearly independent and the leading ones orthonormal. Then all columns up to the last active one are orthonormal, and columns that are not active do not change. If a matrix is given, V = V' R for the active columns (SVQB: with real scalars only), R is upper triangular for CHOL and TSQRCHOL, and its columns outside of the active range are not touched.", "quantifier": "every dimension, number of leading and active columns, inner product, previous contents of the buffer and of R; every result of LAPACK meeting its contract", "why_tests_cant": "all leading and active ranges, both with and without R, complex scalars, all choices of eigenvectors in LAPACK", "anchors": ["src/sys/classes/bv/interface/bvorthog.c:BVOrthogonalize", "src/sys/classes/bv/interface/bvlapack.c:BVMatCholInv_LAPACK_Private,BVMatTriInv_LAPACK_Private,BVMatSVQB_LAPACK_Private"]}
{"id": "C63", "title": "DSSort reorders values and vectors alike", "statement": "DSSort on a DS of type HEP, GHEP, SVD, HSVD or GSVD applies one permutation of the active positions to the values returned, to the values kept in the DS, to the vectors (and the signs). After it the values, or the keys given by the caller, are in the order of the sorting criterion, and those that compare equal keep their order. Locked positions do not change. (SVD, HSVD: if the current size is at most the number of columns; refuted otherwise.)", "quantifier": "every dimension, number of locked values, values, keys, criterion that is a strict weak order, former content of the permutation", "why_tests_cant": "all permutations and ties: the in-place exchange of columns follows the cycles of the permutation", "anchors": ["src/sys/classes/ds/interface/dsops.c:DSSort", "src/sys/classes/ds/interface/dspriv.c:DSSortEigenvaluesReal_Private,DSPermuteColumns_Private", "src/sys/classes/ds/impls/svd/dssvd.c:DSSort_SVD", "src/sys/classes/ds/impls/hep/dshep.c:DSSort_HEP"]}
{"id": "C64", "title": "Time steps of Expokit", "statement": "MFNSolve with MFNEXPOKIT ends after at most max_it steps, and reports divergence exactly if it used all of them. If it reports convergence and in no step all eleven attempts were rejected, the result is the scaled exponential at exactly the requested time, with an error of at most 1.2 times the tolerance times this time (times the scale), provided the local error estimate is reliable. After a breakdown in the first step the result is exact. (Refuted: time and vector agree also after eleven rejections; a last permitted step that reaches the end is reported as convergence.)", "quantifier": "every matrix with a flow that does not increase distances, vector, tolerance, time, number of columns and steps (exact arithmetic)", "why_tests_cant": "all sequences of accepted and rejected steps; the case of eleven rejections does not appear in tests", "anchors": ["src/mfn/impls/expokit/mfnexpokit.c:MFNSolve_Expokit"]}
{"id": "C65", "title": "Dimensions of SVD, PEP and NEP solvers", "statement": "At setup the number of requested values is reduced to the number that exists (SVD, PEP); values of ncv and mpd given by the user are kept (ncv reduced to the size), otherwise ncv is large enough for the requested values, for Krylov solvers of PEP larger unless it is the whole size, and never larger than the problem. The setup is rejected exactly if a given ncv is too small. (NEP: if at most n values are requested; refuted otherwise. Refuted: an object without given dimensions can be used again with larger matrices.)", "quantifier": "every size, number of values, ncv, mpd, kind of solver", "why_tests_cant": "all combinations of given and default values", "anchors": ["src/svd/interface/svdsetup.c:SVDSetDimensions_Default", "src/pep/interface/pepsetup.c:PEPSetDimensions_Default", "src/nep/interface/nepsetup.c:NEPSetDimensions_Default"]}
{"id": "C66", "title": "DSSetDimensions keeps the dimensions consistent", "statement": "After any sequence of calls to DSSetDimensions the size n is between 0 and the leading dimension, smaller than it if an extra row is used (except SVD, GSVD), the truncated size is n, and the number of locked values l is between 0 and the leading dimension. A call that gives n and l sets both, with l between 0 and n, and is rejected exactly if one of them is illegal. (Refuted: k is between 0 and n; l is at most n when l is left at PETSC_CURRENT.)", "quantifier": "every leading dimension, every sequence of calls and arguments", "why_tests_cant": "all sequences of calls and illegal arguments", "anchors": ["src/sys/classes/ds/interface/dsops.c:DSSetDimensions"]}
{"id": "C67", "title": "Using one SVD object for several matrices", "statement": "An SVD object can be used for any sequence of matrices of different shapes: if SVDSetOperators directly follows a solve, a reset or the creation, then after the next SVDSetUp the bases have vectors of the lengths required by the new matrix, and the transposed matrix is used exactly if it has fewer rows than columns. Options may be changed between SVDSetOperators and SVDSetUp and between two setups with the same matrix. (Refuted if an option is changed between the solve and SVDSetOperators.)", "quantifier": "every sequence of matrices, sizes, numbers of options and resets", "why_tests_cant": "all orders of calls; tests use an object for one or two matrices", "anchors": ["src/svd/interface/svdsetup.c:SVDSetOperators", "src/svd/interface/svdsetup.c:SVDSetUp", "src/svd/interface/svdsetup.c:SVDAllocateSolution", "src/svd/interface/svdbasic.c:SVDReset"]}
{"id": "C68", "title": "Using one EPS or PEP object for several matrices", "statement": "An EPS or PEP object can be used for any sequence of matrices of different sizes: if EPSSetOperators (PEPSetOperators) directly follows a solve, a reset or the creation, then after the next setup the basis vectors have the length of the new matrices. Options may be changed after the matrices are given, and between setups with the same matrices. (Refuted if an option is changed between the solve and the new matrices.)", "quantifier": "every sequence of matrices, sizes, numbers of options, setups and resets", "why_tests_cant": "all orders of calls; tests use an object for one or two matrices", "anchors": ["src/eps/interface/epssetup.c:EPSSetOperators", "src/eps/interface/epssetup.c:EPSAllocateSolution", "src/pep/interface/pepsetup.c:PEPSetOperators"]}
