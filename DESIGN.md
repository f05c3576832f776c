# Formal model of SLEPc in Rocq

## Method

* Every C function in scope becomes a total Gallina function over explicit state.
  Out-of-range accesses, use of freed storage, reads of unwritten storage and division
  by zero are a distinct outcome `UB`; an error return (`PetscCheck`) is `Err`.
* `theories/<Area>Model.v` holds definitions only (each with file and lines in /repo),
  `<Area>Proofs.v` the lemmas, `<Area>Props.v` the property theorems, each closed by a
  lemma, with `Print Assumptions` and a concrete example next to it.
* Where the faithful model violates a property, the file contains a `..._refuted`
  theorem with a witness plus the strongest positive theorem that does hold.
* Numeric code is modelled in exact arithmetic (ordered fields, real closed fields, or
  the reals); rounding, overflow and NaN are outside the model, except that the sort
  theorems hold for arbitrary comparison answers.

## Plan per property

| id | model | proof |
|----|-------|-------|
| C01-C03 | `SortModel.v`: the insertion sort on an index array, bounds-checked | block invariant of both loops, induction |
| C04 | `SortModel.v` `sc_compare` with oracle map/region/comparison | preorder lemma + C03 |
| C05 | `SortModel.v` comparators over a real closed field | case analysis on order |
| C06 | `PoolModel.v`: chain of pools, fresh vector identities | invariant over LIFO histories |
| C07-C11 | `RGModel.v` over a real field | order arithmetic |
| C12, C30 | `RGModel.v` | crossing parity; boundary clause refuted by witness; symmetry check refuted for polygons |
| C29 | `CmpModel.v` SlepcAbs | order arithmetic |
| C13, C31 | `ContourModel.v`: point ownership, scatter pairs, quadrature loops over a field and vector space | division arithmetic, loop invariants, reindexing of sums; two parts refuted |
| C14 | `FNModel.v`, `FNRModel.v` over R (Coquelicot derivatives) | induction on the function tree |
| C15, C16, C33 | `FNMatModel.v` over a field, matrices of mathcomp at numbered locations | induction on coefficients / tree |
| C17 | `FNModel.v`: heap of objects, setters, duplicate | simulation between object graphs, frame |
| C18 | `FNMatModel.v` per-process memories | induction on trees; refuted for mixed modes |
| C32 | `FNMatModel.v` with `UB` outside of the tables | invariant over setter calls; refuted for the last value |
| C34 | `FNPhiModel.v`: the augmented matrix | induction on powers of the block matrix |
| C19-C21,C26-C28 | `BVModel.v` state machine | invariants over operations |
| C22 | `BVCacheModel.v` | refuted by witness + theorem with fixed matrix |
| C23-C25, C35, C36 | `GSModel.v` over an inner product space | induction on columns; loop invariants for the coefficient arrays |
| C37 | `STModel.v` back-transforms, `STSpec.v` operator | algebra of the pencil |
| C38 | `STModel.v`: object with a heap of reference counted matrices | refinement of the abstract object `STSpec.v`; refuted outside of the covered calls |
| C39 | `STModel.v` (nmat > 2): packed coefficients, loops over T[k] | loop invariants, binomial identities |
| C40 | `STModel.v` `shell_diag` | direct; refuted for two matrices |
| C41 | `PEPModel.v`: three-term recurrences in the array pbc, evaluation loops, residuals | loop invariants; refuted for Legendre, Laguerre, Hermite |
| C42 | `PEPModel.v`: set-up, the two matrix-free operators, back-transform, extraction, restoring | closed form of the loops, block recurrence; refuted outside of `supported` |
| C43 | `PEPModel.v`: the explicit companion pencils | block algebra; two parts refuted |
| C44, C45 | `KrylovModel.v`: BVMatArnoldi, BVMatLanczos on top of `GSModel.v`, the arrays of H and T bounds-checked | one step from the Gram-Schmidt theorems, induction on steps; entry at full dimension refuted |
| C46 | `KrylovModel.v`: EPSKrylovConvergence, with oracles for the eigenvectors and tests | loop invariant over blocks |
| C47, C48, C49 | `KSModel.v`: the restart loop of Krylov-Schur (complex scalars), DSNHEP with its extra row, start vectors, final eigenvectors; LAPACK as oracles with stated contracts | invariant of the restart loop (Krylov-Schur decomposition + accepted pairs), induction on iterations; outcome outside of the stated sizes refuted |
| C50 | `SVDModel.v`: SVDSetUp (orientation, transposes), SVDSolve and vectors with the cross product matrix, SVDGetSingularTriplet, SVDComputeError; the eigensolver is an oracle (orthonormal Ritz vectors of the operator it gets) | adjoint algebra, QR of an orthogonal family (C35), permutation; zero singular values refuted |
| C51 | `SVDModel.v`: the same with the cyclic matrix | loop over eigenpairs; eigenvalue zero refuted |
| C52 | `SVDModel.v`: generalized problems, both solvers | same |
| C53 | `SVDModel.v`: hyperbolic problems with the cross product matrix | indefinite Gram-Schmidt (C23); wide matrices refuted |
| C54 | `MFNModel.v`: MFNSolve with the Krylov solver on top of `KrylovModel.v`; the dense function is an oracle | invariant: the concatenated blocks satisfy an Arnoldi relation; polynomial exactness; the convergence test as an error bound refuted |
| C55 | `MFNModel.v`: the operator of the object over sequences of calls | invariant; transpose after a change of operator refuted |
| C56 | `EPSModel.v`: reordering of conjugate pairs at the end of EPSSolve, EPSGetEigenpair, left vectors, real scalars | loop invariant over the block structure |
| C57 | `EPSModel.v`: EPSComputeError with the three types, two-sided, real scalars | on top of C56; eigenvalues below the machine precision refuted |
| C58 | `EPSModel.v`: eigenvalues and right/left vectors of EPS_BSE and EPS_LREP, left vectors of EPS_HEP and EPS_GHEP | algebra of the block matrices; Hermitian problems refuted |
| C59 | `EPSModel.v`: eigenvalues and vectors of EPS_HAMILT, real scalars | algebra for the three kinds of eigenvalues; repeated quadruples refuted |
| C60 | `EPSModel.v`: discarding of values outside of the interval with STFILTER | loop invariant, permutation |
| C61 | `EPSModel.v`: EPSSetDimensions_Default | case analysis |
| C62 | `BOModel.v`: BVOrthogonalize with CHOL, TSQRCHOL and SVQB (not plain TSQR), with leading columns; LAPACK factorizations are oracles | matrix algebra over index ranges; the factor of SVQB in complex arithmetic refuted |
| C63 | `DPModel.v`: DSSort for HEP, GHEP, SVD, HSVD, GSVD (insertion sorts and in-place permutation of columns) | invariants of both loops; more rows than columns in DSSVD refuted |
| C64 | `EKModel.v`: MFNSolve with Expokit: choice, rejection and accumulation of time steps; Arnoldi, dense exponential, powers and rounding are oracles | invariant of the outer loop (time never exceeds the end, error grows at most linearly); two refutations |
| C65 | `DimModel.v`: the dimensions of SVD, PEP and NEP objects fixed at setup (reduction to the problem size, defaults) | case analysis; NEP with many values and reuse of the object refuted |
| C66 | `DimModel.v`: DSSetDimensions over sequences of calls | invariant; illegal k, and l larger than n, refuted |
| C67 | `SVDReuseModel.v`: SVDSetOperators, options, SVDSetUp, SVDReset on shape, state, swapped flag and lengths of the bases | induction over rounds of calls; option before SVDSetOperators refuted |
| C68 | `ReuseModel.v`: the same for EPSSetOperators and PEPSetOperators: size, state, length of the basis vectors | induction over rounds of calls; option before the new matrix refuted |

More rows are added as the model grows.

## Trusted base

* Coq 8.16.1 kernel.  No axioms of our own.
* Files that use the standard library's real numbers depend on the axioms that
  `Print Assumptions` lists for `Reals`: `ClassicalDedekindReals.sig_not_dec`,
  `ClassicalDedekindReals.sig_forall_dec`,
  `FunctionalExtensionality.functional_extensionality_dep`, `Classical_Prop.classic`.
  This concerns the C07-C12, C30 (RG) and C14 theorems.  All the theorems of the Sort, Cmp,
  Pool, Contour areas and the other FN theorems are closed under the global context.
* The reading of the C sources: every definition cites the lines it models.

## Areas

### Sorting and comparison (Sort*, Cmp*): C01-C05, C29
Modelled: slepcsc.c SlepcSCCompare, SlepcSortEigenvalues, the SlepcCompare* functions,
SlepcAbs/SlepcAbsEigenvalue.  Not modelled: the user supplied comparison itself (oracle,
arbitrary), floating point.

### Vector pool (Pool*): C06
Modelled: slepcutil.c/slepcpool code for SlepcVecPool (Create, GetVecs, RestoreVecs with
reallocation of the backing list).  Vectors are identities with a liveness state.

### Regions (RG*): C07-C12, C30
Modelled: all four RG types (parameters setters with special values, CheckInside,
IsTrivial, IsAxisymmetric, ComputeBoundingBox, ComputeContour) and the RGSetScale,
RGPushScale, RGPopScale, RGSetComplement, RGCanUseConjugates wrappers, in exact real
arithmetic.  Not modelled: RGComputeQuadrature, viewers, options parsing, overflow.
`MAXR` stands for PETSC_MAX_REAL (any positive number), `tol` for 10*PETSC_MACHINE_EPSILON.

Findings (each is a theorem named `..._refuted`):
* rginterval.c: in real scalars the third loop of the contour uses the wrong sign and
  produces points outside the rectangle (`C09_real_scalars_refuted`); for odd n the last
  entry is never written (`C09_odd_n_refuted`); n=1 on a segment or a ring divides by zero
  (`C09_single_point_refuted`).
* rgring.c: 0 is not the boundary: angle is only tested when the radial test gave 1
  (`C07_ring_boundary_refuted`); the vertical symmetry flag is wrong for angles [1/2,1]
  (`C10_vertical_ring_refuted`).
* RGCanUseConjugates with a rectangle: half the contour is not closed under conjugation
  (`C10_conjugate_halves_interval_refuted`).
* rgpolygon.c: the midpoint of a horizontal edge is reported exterior
  (`C12_boundary_refuted`); CheckSymmetry accepts non-symmetric polygons with an odd number
  of vertices (`C30_polygon_refuted`).

### Contour integration (Contour*): C13, C31
Modelled: slepccontour.c SlepcContourDataCreate (counts), SlepcContourScatterCreate (index
pairs), bvcontour.c p_id, BVScatter (as its index pairs), BVSumQuadrature,
BVDotQuadrature, BVTraceQuadrature: the loops with their array indices, all partitions
together; vectors live in an arbitrary vector space over an arbitrary field, `2*Re` is any
additive map.  Not modelled: how PETSc builds communicators; the parallel layout beyond
ownership ranges.  Closed under the global context.

Findings:
* BVTraceQuadrature with several partitions never clears the vector that receives the
  contributions of all partitions, so from the second column on it contains the sum of the
  previous columns (`C31_trace_partitions_refuted`).
* BVSumQuadrature with several partitions adds to the previous contents of S, with one
  partition it overwrites them; the CISS solvers call it again in every outer iteration
  without clearing S (`C31_sum_accumulates_refuted`).

### Math functions (FN*): C14-C18, C32-C34
Modelled: fnbasic.c object life (create, set type, scale, method, parallel mode, duplicate),
scalar evaluation and derivative of all types (rational, exp, log, sqrt, invsqrt, phi,
combine), FNEvaluateFunctionMat and FNEvaluateFunctionMatVec with in-place evaluation, work
matrices, diagonalization of Hermitian arguments and the parallel modes; rational and combine
types completely; fnphi.c augmented matrix.  Matrices are at numbered locations, work matrices
at locations not in use.
Oracles (premises of the theorems): the dense algorithms of exp/log/sqrt/invsqrt (Pade,
Schur, Denman-Beavers ...), assumed to map eigenvectors to eigenvectors as the scalar function
does; LAPACK syev, assumed to return an eigendecomposition; LU solves are exact and fail for
singular matrices.  In C34 the exponential is any polynomial sum (exact for every truncation
order).  Not modelled: CUDA variants, FN_PARALLEL with different A per process, viewers,
reference counts of children (no destroy operation).

Findings:
* log: in real scalars the check excludes negative arguments only, log(0) is evaluated
  (`C14_log_zero_refuted`).
* FNSetMethod accepts FN_MAX_SOLVE=16 for a table of 16 entries (`C32_set_method_refuted`;
  DSSetMethod has the same test).
* A synchronized child of a redundant combine object is evaluated by process 0 only and never
  broadcast: the processes get different results (`C18_sync_child_refuted`).

### Basis vectors (BV*): C19-C21, C26-C28
Modelled: bvbasic.c column access, active columns, constraints, resize, signature, coefficients
buffer, split views, column copy; the storage is a heap of allocations, each with its columns,
views point into the allocation of their parent, Vecs are handles (allocation, position) with
their object state.  A program is any sequence of the calls in `op`, on the basis and on its
views.  C19 is a refinement to a plain family of numbered columns (`BVSpec.v`); the other ones
are invariants over all histories whose calls satisfy a stated condition.
Not modelled: rows and their distribution, GPU types, BVMAT and BVTENSOR storage, BVGetSplitRows,
BVGetMat/BVRestoreMat, duplication.  Closed under the global context.

Findings:
* BVResize does not check for columns that are out (`C19_resize_dangling_refuted`), and keeps
  the split views, which point to the freed storage (`C27_resize_refuted`).
* BVSetActiveColumns(bv,PETSC_CURRENT,k) with k smaller than l leaves l > k
  (`C20_current_refuted`); a failing call has already changed k (`C20_failed_call_refuted`).
* BVSetNumConstraints with a smaller number keeps the buffer although there are more columns
  (`C26_fewer_constraints_refuted`), does not move the signature
  (`C28_fewer_constraints_refuted`), and the left view keeps the old "no column out" mark
  (`C27_constraints_refuted`).
* BVRestoreSplit compares with nc-1 instead of -nc-1 (`C27_unrestored_refuted`).
* BVCopyColumn ignores the constraints when copying the signature (`C28_copy_refuted`); BVResize
  with copy leaves signature 0 in new columns (`C28_grow_refuted`).

### Products with the inner-product matrix (BVCache*): C22
Modelled: BV_IPMatMult, BV_IPMatMultBV (bvimpl.h), BVApplyMatrix, BVSetMatrix, and for the storage
types BVVECS, BVCONTIGUOUS, BVSVEC which Vec carries a column and which operations increase its
state and the state of the basis.  Contents of vectors and matrices are values of arbitrary types.
Not modelled: nested products (a product asked for while a column is out), constraints in
bv->cached.  Closed under the global context.

Findings:
* BVSetMatrix does not invalidate the kept product: with the new matrix the same unmodified vector
  gives the product with the previous matrix (`C22_set_matrix_refuted`).
* With BVCONTIGUOUS the BV operations write in the array of a column without increasing the state
  of its Vec, so BVScaleColumn followed by BVNormColumn can use the product of the old column
  (`C22_contiguous_refuted`).
* Changes through split views do not increase the state of the parent, so the products with all
  columns are out of date (`C22_split_refuted`).

### Gram-Schmidt (GS*): C23-C25, C35, C36
Modelled: bvorthog.c BVOrthogonalizeMGS1, BVOrthogonalizeCGS1, BVOrthogonalizeGS, BVOrthogonalizeVec,
BVOrthogonalizeColumn, BVOrthogonalizeSomeColumn, BVOrthonormalizeColumn, BVOrthogonalize with the
Gram-Schmidt method; BV_CleanCoefficients, BV_AddCoefficients, BV_StoreCoefficients, BV_SquareSum,
BV_ApplySignature, BV_SafeSqrt of bvimpl.h; BVInsertVecs, BVInsertConstraints of bvfunc.c.  Exact
arithmetic over an arbitrary numeric field, arbitrary vector space and inner product; the buffer with
its scratch column and the arrays h, c are explicit, uninitialized norms are undefined behaviour.
Oracles: conjugation, square root (premise: a square root of nonnegative numbers), the two random
vectors of BVOrthonormalizeColumn.  Not modelled: ops->gramschmidt (tensor), the filling of bv->cached
in BVOrthogonalize_GS, the Cholesky, TSQR and SVQB methods, rounding.  Closed under the global context.

Findings:
* The manual page of BVOrthogonalizeColumn/Vec says that H also holds the norm; it is never written
  (`C23_norm_in_H_refuted`).
* BVOrthogonalizeSomeColumn returns leftovers of previous calls for columns that are not selected,
  because BV_AddCoefficients adds the whole scratch column (`C25_unselected_refuted`).
* BVOrthogonalize does not write R below the diagonal, so V = V~ R needs R to be zero there on entry
  (`C35_lower_triangle_refuted`).
* With an indefinite inner product R holds the inner products, not divided by the signature, so the
  documented V = V~ R fails (`C35_indefinite_refuted`).
* BVOrthogonalize with the Gram-Schmidt method stops with an error for dependent columns (part of
  `C35_orthogonalize`); the manual page says that they are replaced by random directions.
* For column 0 of a basis with constraints h and c are the same column of the buffer, so the
  coefficients of the constraints are doubled; they are never returned to the caller (premise
  `nalias` of `gs_ok`).

### Spectral transformations (ST*): C37-C40
Modelled: stsolve.c STApply, STApplyTranspose, STApplyHermitianTranspose, STGetOperator, STComputeOperator,
STSetUp, STMatMAXPY_Private, STCoeffs_Monomial, STPostSolve; stfunc.c STReset, STSetMatrices, STSetShift,
STSetDefaultShift, STSetBalanceMatrix; stset.c STSetType, STSetMatMode, STSetTransform; stsles.c STMatSolve and
its transposes; stshellmat.c; shift.c, sinvert.c, cayley.c (linear problems as histories, polynomial
problems as set-up followed by changes of the shift).  Mat objects are cells of a heap with reference
counts; using or destroying a destroyed object is undefined behaviour.  Arbitrary field (2 != 0),
conjugation an involutive morphism, any dimension.
Oracle: KSPSolve is exact and reports an error exactly for singular matrices.  Not modelled: user
preconditioners (Pmat, Psplit), which influence only the linear solver; structured (BSE) problems;
MatStructure; the types filter, precond, shell; rounding.  Closed under the global context.

Findings:
* Real scalars, Cayley: cayley.c:98-102 overwrites r and i before computing the denominator; conjugate
  pairs are transformed wrongly (`C37_real_pairs_cayley_refuted`).
* MatGetDiagonal of the shell: VecAYPX in stshellmat.c:136 computes alpha*diag(A)+diag(B)
  (`C40_shell_diagonal_refuted`).
* Changing type, mode, flags, or matrices while A is shifted in place forgets that it is shifted
  (`C38_change_while_shifted_refuted`).
* STSetShift between STGetOperator and STSetUp: the matrices keep the old shift
  (`C38_shift_after_getoperator_refuted`).
* Cayley with default antishift: STSetShift(-sigma) is refused because the old antishift is compared
  (`C38_opposite_cayley_shift_refuted`).
* STCayleySetAntishift after set-up replaces T[0] but not M: from zero the change has no effect
  (`C38_antishift_from_zero_refuted`), to zero the next product uses a destroyed matrix
  (`C38_antishift_to_zero_refuted`).
* STGetOperator after a change of type does not clear T; the first matrix of the new type is built in
  the user's B (`C38_getoperator_after_change_refuted`).
* STPostSolve in mode INPLACE adds sigma*B to A also if A is not shifted
  (`C38_postsolve_not_shifted_refuted`).
* cayley.c:59: the plain transposed product conjugates nu (`C38_transpose_cayley_inplace_refuted`).
* Not reachable with the coefficients that are used: STMatMAXPY_Private in mode COPY with leading zero
  coefficients scales wrongly, with all coefficients zero reads coeffs[-1] (modelled as UB).

### Polynomial eigenproblems (PEP*): C41-C43
Modelled: pepdefault.c PEPBasisCoefficients, peputils.c PEPEvaluateBasis, PEPEvaluateBasisDerivative (complex and
real scalars), pepsolve.c PEPComputeResidualNorm_Private without the norm; linear.c MatMult_Linear_Shift,
MatMult_Linear_Sinvert, BackTransform_Linear, PEPSetUp_Linear, PEPLinearExtract_None/Norm/Residual,
PEPSolve_Linear; qeplin.c (the matrices N, S, H); the part of PEPSetUp that prepares the matrix of the linear
systems.  Any number of matrices and any dimension, exact arithmetic over a field with an absolute value; fresh
arrays have arbitrary contents; all array accesses are bounds-checked.
Oracles: the inner EPS is any exact eigenpair of the operator (or pencil) it is given; STMatSolve is exact and an
error for a singular matrix; STMatMult multiplies by the matrices of the transformed polynomial (C39); the residual
norm used by PEP_EXTRACT_RESIDUAL is any nonnegative function that vanishes on eigenvectors.  Not modelled:
diagonal scaling, normalization, complex pairs in real scalars inside the extraction, regions, tolerances, rounding.
Closed under the global context.

Findings:
* PEPBasisCoefficients: the values for Legendre (pepdefault.c:411-416, cb should be 0 and ca, cg divided by 2k+1),
  Laguerre (cb[0] should be 1) and Hermite (sign of cg) do not give these polynomials
  (`C41_legendre_refuted`, `C41_laguerre_refuted`, `C41_hermite_refuted`).  The polynomials that are used are
  consistently evaluated (`C41_every_basis`).
* Shift-and-invert in another basis than the monomial and degree 3 or more: linear.c:165-172 multiplies
  cg/ca*y_{d-2} by A_{d-1}; it belongs to A_d (`C42_sinvert_degree3_refuted`).
* Shift-and-invert with a shift given by STSetShift different from the target: the operator is built for the target,
  the back-transform uses the shift (`C42_shift_target_refuted`).
* PEP_EXTRACT_NORM with STSetTransform and a shift chooses the block by the wrong eigenvalue; the vector may be zero
  (`C42_norm_transform_refuted`).
* Explicit matrix, general problems, alpha and beta nonzero: singular pencils for regular problems
  (`C43_singular_refuted`).
* Explicit matrix, gyroscopic problems: the eigenvector of the pencil is [lambda*x; x]; for lambda = 0
  PEP_EXTRACT_NONE reports a zero vector (`C43_gyroscopic_zero_refuted`).
* Not formalised: PEPSetUp twice without a solve scales the shift twice; TOAR with refinement MULTIPLE and
  STSetTransform does not restore pbc.

### Krylov decompositions (Krylov*): C44-C46
Modelled: bvkrylov.c BVMatArnoldi and BVMatLanczos with BVMatMultColumn (column to column) and
BV_OrthogonalizeColumn_Safe, on top of the Gram-Schmidt model; H and T as arrays with their leading
dimension, writes past the end are undefined behaviour; epskrylov.c EPSKrylovConvergence.  The matrix is
any function of vectors (C44), a self-adjoint linear map (C45).  Exact arithmetic; the premise on the
dimension (an orthonormal family, constraints included, has at most N vectors) replaces the rank argument
behind the test j==V->N-1.  In C46 the eigenvalues, the back-transform, the region, the convergence test and
DSVectors are oracles.  Closed under the global context.

Findings:
* BVMatArnoldi accepts m equal to the number of columns but needs one more: it ends in an error of
  BVMatMultColumn unless a breakdown comes first (`C44_last_column`).
* When the basis fills the space (j==V->N-1) BV_OrthogonalizeColumn_Safe is called without a norm argument
  and nothing is stored in the buffer, so the entry of H below the last column, and the last off-diagonal
  entry of T, are whatever the buffer contained (`C44_full_refuted`, `C45_full_refuted`); beta is correct.
* The checks of k and m in BVMatLanczos (lines 185-186) are disjunctions that always hold.

### Krylov-Schur (KS*): C47-C49
Modelled: krylovschur.c EPSSolve_KrylovSchur_Default (standard extraction, complex scalars, one process, no
arbitrary selection, no threshold stopping) with EPSGetStartVector, EPSStoppingBasic, EPSComputeVectors_Schur
(without purification and balancing), DSSetDimensions, DSGetMat, DSSolve, DSSort, DSUpdateExtraRow, DSTruncate
and DSVectors of DSNHEP, BVMultInPlace, BVCopyColumn; on top of the models of BVMatArnoldi, Gram-Schmidt and
EPSKrylovConvergence.  Exact arithmetic; a linear operator on a space of dimension N.

Oracles (section variables, with contracts as hypotheses of C47, `KSSpec.v`): LAPACK gehrd/orghr/hseqr return a
Schur decomposition of the active part and leave the locked columns alone; trexc is a unitary similarity from
position i on (C49: it moves the diagonal element); trevc returns an eigenvector of the triangle when the diagonal
element does not occur before.  They are satisfiable: `KSCases.v` defines them for order two over the algebraic
numbers.  The comparison of eigenvalues is arbitrary in C47.  Closed under the global context.

Findings:
* DSTruncate_NHEP copies the extra row to its new place and then zeroes row n; for n' = n these are the same row,
  so the coupling is lost (`C48_truncate_full_refuted`).  EPSSolve gets there with mpd < ncv when all but one value
  of a restart converge (k+l = nv); the next iteration then takes the last pair as converged.  Not formalised as
  a statement about the whole solver; C47 has the hypothesis ncv <= mpd.
* nev = ncv < N is accepted by EPSSetUp; k = ncv-1 then gives k+l = ncv and BVMatArnoldi ends in an error.  C47
  has the hypothesis nev < ncv or ncv = N.
* After a breakdown with k < nv (possible with a nontrivial region, where unwanted values are not counted)
  EPSGetStartVector puts a new vector in column k and resets `breakdown`; BVCopyColumn then overwrites it with
  column nv, the zero residual.  The next iteration accepts eigenvalue 0 with the zero vector
  (`C47_region_refuted`, `KSRefuted.v`: diag(1,2), region "not 1", start vector e1).
* DSSetDimensions checks `k>=0 || k<=n`, which always holds.
* DSSolve_NHEP_Private returns early for n = 1 without restoring the arrays it got.

### Singular values (SVD*): C50-C53

Modelled (`SVDModel.v`, one process, exact arithmetic): SVDSetUp (choice of A or its transpose, sizes), the
operators of cross and cyclic (explicit and shell, all transpose options), SVDSolve of both with the sorting of the
values, SVDComputeVectors of both for standard and generalized problems, the left vectors by BVOrthogonalize (the
Gram-Schmidt model of C35), SVDGetSingularTriplet, the residual norms and SVDComputeError. All vectors are in one
space, so lengths are not checked by the model.

Not modelled: the other SVD types, dimension defaults, initial spaces, monitors, ScaLAPACK etc., hyperbolic problems
with the cyclic matrix, floating point, MatNorm (arbitrary numbers), diagonals and preconditioners of the shell
matrices, a second use of the object after other settings (`swapped` is that of a fresh object).

Oracles: the eigensolver (C50, C53: orthonormal Ritz vectors of the self-adjoint operator it is given, not necessarily
converged; C51: real eigenvalues, orthonormal vectors; C52: Rayleigh quotients, or vectors of norm one in the inner
product of the pencil), PetscSortRealWithPermutation (sorting permutation), square root and real part.

Findings:
- `C50_zero_value_refuted`: if a singular value is exactly zero, SVDGetSingularTriplet with vectors stops with an
  error for every index, since BVOrthogonalize does not accept the zero column A*v (svdsolve.c:54-56).
- `C51_zero_first_refuted`: SVDSolve_Cyclic keeps `sigma>0.0` (cyclic.c:555), but SVDComputeVectors_Cyclic skips
  only `sigma<0.0` (lines 583, 634): an eigenvalue zero listed before a positive one (target with shift-and-invert;
  an EPS given by the user) shifts the vectors with respect to the values.
- `C53_wide_refuted`: hyperbolic problem, cross, more columns than rows. The eigenproblem solved is
  A A^* x = lambda Omega x and u = Omega x/sqrt|x^* Omega x|; v is A^* Omega u divided by its norm. Then
  A v = sign s u, whereas the definition and SVDComputeResidualNorms_Hyperbolic have A v = s u. In the other branch
  the columns with negative sign are flipped (svdsolve.c:58-68), here they are not.
- C52: for sigma=0 the left vector u of the solver cross is zero, not a unit vector; the relative error divides by
  c=0 then.
- Read in the code but not formalised: MatGetDiagonal_Cross and MatGetDiagonal_ECross square entries without
  conjugation (complex scalars); cyclic.c:495 `PetscArrayzero(&va,k)` clears the pointer instead of the array;
  cyclic.c:494 restores IS[i] instead of ISL[i]; cyclic.c:504-505 writes IS[i] also when there are fewer right than
  left initial vectors; SVDSetOperators with other sizes in the initial state does not reset `swapped`
  (svdsetup.c:70, 347).

### Functions of a matrix (MFN*): C54, C55

* Modelled: MFNSolve_Krylov (mfnkrylov.c: all iterations, the growing matrix H, the convergence
  test, restart with the last vector), the normalisation and error checks of MFNSolve
  (mfnsolve.c:23-40), the handling of mfn->A, mfn->AT and setupcalled by MFNSetOperator, MFNSolve,
  MFNSolveTranspose, MFNSetDimensions, MFNReset.  BVMatArnoldi is the model of C44.
* Simplified: the matrix H is a function on pairs of indices, its reallocation is not modelled;
  the flag symmetric of H, monitors, and the initial guess (always zero in the code) are left out.
* Not modelled: the solver expokit; default dimensions.
* Oracle: FNEvaluateFunctionMatVec (`fmv`), assumed to depend only on the entries of the block it
  is given.  The theorem holds for every polynomial that agrees with it on the blocks that were used
  (for a matrix function defined by the spectrum, an interpolating polynomial of the largest block).
* Assumptions of C54: exact arithmetic, Hermitian positive definite inner product on a space of
  dimension at most N, linear operator, b nonzero, ncv and max_it positive, no constraints in V.
* Findings:
  - MFN_CONVERGED_TOL is set when the last update is small, which says nothing about the error:
    f(x) = x^2, A = [0 2; 1 0], b = e_1, ncv = 1 returns 0 after two iterations for every positive
    tolerance, the exact result is 2 e_1 (`C54_error_refuted`).
  - MFNReset does not destroy mfn->AT (mfnbasic.c:410-422; only MFNDestroy does).  After
    MFNSolveTranspose, MFNSetOperator with another matrix, MFNSolveTranspose multiplies with the
    transpose of the former matrix (`C55_transpose_refuted`).

### Eigensolver interface (EPS*): C56-C61

* Modelled: end of EPSSolve (epssolve.c:179-195, conjugate pairs), EPSGetEigenvalue (482-526),
  EPSGetEigenpair and EPSGetLeftEigenvector (640-679), EPS_GetEigenvector and its variants for
  EPS_BSE, EPS_HAMILT, EPS_LREP (epsimpl.h:384-576), BV_GetEigenvector (bvimpl.h:421-444),
  EPSComputeResidualNorm_Private and EPSComputeError (739-893), the loop of
  EPSComputeValues for STFILTER (70-76), EPSSetDimensions_Default (epssetup.c:692-718).
* Simplified: exact arithmetic; both parts of a vector are always asked for; in C58 the eigenvalues are
  real (eigi plays no role), vectors have two parts (the blocks of a MATNEST); the matrix norms in
  EPSComputeError are parameters; PETSC_DETERMINE is `None`.
* Not modelled: complex scalars in C56, C57 and C59; what the solvers leave in eigr, eigi, V, W
  (hypotheses of the theorems); EPSComputeVectors; purification; balancing; user-defined stopping.
* Assumptions: C56 the conjugate values are adjacent with opposite imaginary parts; C57 also a
  symmetric semidefinite inner product, linear matrices, |lambda| larger than the machine
  precision, imaginary part zero or not negligible, divisor not zero; C58 R Hermitian and C complex symmetric
  (EPS_BSE), real symmetric blocks (EPS_LREP), real eigenvalues, all right pairs exact; C59 columns
  u, v with H u = v, H v = lambda^2 u and v not in the span of u (imaginary lambda: v not zero), quadruples
  adjacent in the sorted order.
* Findings:
  - EPSComputeError leaves out lambda B x if |lambda| is not larger than the machine precision: an exact
    eigenpair then has a reported absolute error of norm A x (`C57_small_refuted`).
  - EPSGetLeftEigenvector for EPS_HEP and EPS_GHEP (epssolve.c:648): lrepreduced is false there, so the branch that
    changes the sign of the bottom part is taken.  It is an error unless the matrix is a MATNEST
    (`C58_left_hermitian_refuted`); if it is, the result is not a left eigenvector
    (`C58_left_nest_refuted`).
  - EPS_HAMILT: with a quadruple computed twice in a row the test for the second half of a quadruple
    matches across the copies (epssolve.c:518-523, epsimpl.h:471-476); -lambda and -conj(lambda) of the
    second copy are never returned (`C59_repeated_refuted`).
  - Read, not formalised: for EPS_HAMILT the reordering loop would change the sign of the imaginary part of u but not
    of the one of v; EPSGetEigenvector with EPS_HAMILT, a real eigenvalue and Vr=NULL divides by zero;
    for EPS_LREP in reduced form and odd index it uses Vr even if it is NULL.
  - Default dimensions: with more values requested than the size of the problem, ncv is the size and
    smaller than nev, without an error in this function (excluded in C61 by the hypothesis
    wanted <= size); mpd=0 is excluded as well.

### Block orthogonalization (BO*): C62

* Modelled: BVOrthogonalize with BV_ORTHOG_BLOCK_CHOL, _TSQRCHOL and _SVQB (bvorthog.c:489-503, 578-594,
  614-630, 667-691, 703-718, 773-815) and BVMatCholInv, BVMatTriInv, BVMatSVQB_LAPACK_Private (bvlapack.c:128-330),
  including the use of the matrix of the user as workspace for the inverse.
* Simplified: exact arithmetic; matrices are functions of row and column; the leading dimension of the matrix of the
  user is its number of rows; no constraints (an error in the code).
* Not modelled: BV_ORTHOG_BLOCK_GS (column by column, C35 covers it) and plain TSQR; the tree reduction behind
  BVOrthogonalize_LAPACK_TSQR_OnlyR; the cached product with the inner product matrix.
* Oracles, with contracts `potrf_spec`, `trtri_spec`, `syev_spec`, `tsqr_spec` (`BOSpec.v`) as hypotheses: LAPACK
  potrf succeeds for positive definite blocks and then returns the factor; trtri inverts a triangle
  with nonzero diagonal; syev returns an eigendecomposition of a Hermitian block; the TSQR factor. `BOCases.v` has
  functions satisfying them for two columns (syev: one column).
* Assumptions: leading columns orthonormal, all columns linearly independent (positive definite inner product).
* Findings:
  - SVQB with complex scalars: the loop commented "R = U'" (bvlapack.c) copies the transpose without
    conjugation. The matrix returned to the user is then not the R of V = V' R
    (`C62_svqb_complex_refuted`, whatever eigenvectors LAPACK returns).
  - Read, not formalised: BVMatCholInv and BVMatTriInv take the number of rows of the matrix as its leading
    dimension, wrong for a submatrix obtained by MatDenseGetSubMatrix; the product with 50 eps on the diagonal is the
    only remedy for dependent columns, then V' is not orthonormal.

### DSSort for diagonal forms (DP*): C63

* Modelled: DSSortEigenvaluesReal_Private, DSSortEigenvalues_Private without imaginary parts (dspriv.c:202-276),
  DSPermuteColumns_, DSPermuteColumnsTwo_, DSPermuteBoth_Private (dspriv.c:278-400), the permutation set up by DSSort
  (dsops.c:782-806), DSSort_HEP (dshep.c:321-345), DSSort_GHEP (dsghep.c:75-94), DSSort_SVD (dssvd.c:158-183),
  DSSort_HSVD (dshsvd.c:153-184), DSSort_GSVD (dsgsvd.c:193-241). The search for the position holding index i
  running past the end of perm is undefined behaviour.
* Simplified: arrays are functions; a column is one abstract element, the columns of several matrices moved by the same
  permutation are one element; the comparison is a boolean function (negative result of SlepcSCCompare).
* Not modelled: conjugate pairs (the other sort is C02); DSSort of NHEP, GNHEP, GHIEP, PEP, NEP, NHEPTS.
* Assumptions: the comparison is a strict weak order (C01 shows for which criteria this holds); l and t at most n (SVD:
  at most min(n,m)), n at most ld.
* Findings:
  - DSSVD with more rows than columns: DSSetDimensions leaves t = n, so entries m..n-1 of T, which hold no singular
    value, are also sorted (`C63_svd_rows_refuted`). With an order for which they come first, such as smallest first,
    the singular values returned contain zeros and the true ones are lost. SVDLAPACK with SVD_SMALLEST and more
    rows than columns calls it this way (svdlapack.c:50-58).
  - Read, not formalised: DSSetDimensions checks `k>=0 || k<=n` (always true), an illegal k is accepted.

### Expokit (EK*): C64

* Modelled: MFNSolve_Expokit (mfnexpokit.c:44-180): choice of the step, scaling of the Hessenberg matrix, rejections,
  error estimate, combination of the basis, accumulated time, number of steps, reason.
* Oracles: BVMatArnoldi (basis, array H, number of columns, breakdown), FNEvaluateFunctionMat, VecNorm, MatMult,
  PetscPowReal (`root_spec`), the power of ten below a number (`decade_spec`), PetscCeilReal (`ceil_spec`).
* Simplified: exact real arithmetic, real scalars, nonzero t; 1/xm is kept as an integer; t_new infinite exactly if the
  error estimate is 0; the flag `ex` (a step ran out of attempts) is a ghost variable. The first t_new (lines 75-78) is
  a parameter, only its sign matters. Not modelled: monitors, the stored error value.
* Assumptions of C64_expokit: the flow x -> exp(sgn h A) x has the semigroup property and does not increase distances;
  the estimate of the code bounds the local error, the approximation is exact after a breakdown (`Hrel`). The quality
  of the estimate itself is not proved. At least two columns.
* Findings:
  - After eleven rejections the loop of attempts ends with a reduced t_step, but the vector is computed with the matrix
    function of the step before the reduction: time and vector no longer agree, and convergence can be reported
    for a result at another time (`C64_rejected_refuted`).
  - If the last permitted step reaches the end, MFN_CONVERGED_TOL is overwritten by MFN_DIVERGED_ITS although the
    result is exact (`C64_last_step_refuted`).
  - Read, not formalised: t = 0 divides by zero (line 79).

### Dimensions (Dim*): C65, C66

* Modelled: the reduction of nsv, ncv (nev, ncv) to the problem size at setup and the defaults: svdsetup.c:353-356 and
  474-499, pepsetup.c:121-122 and 417-442, nepsetup.c:264-281; DSSetDimensions (dsops.c:132-164) on n, l, k, t.
* Simplified: PETSC_DETERMINE is None for the solver objects (it is negative, so PetscMin keeps it); the dimensions of a
  new DS are 0; the flag extrarow does not change between calls; the change of state at the end of DSSetDimensions is not
  modelled. Solver-specific checks after the defaults are not modelled. nsv = 0 only with a threshold or before setup.
* Findings:
  - NEP: more eigenvalues than the size of the matrices can be requested (a nonlinear problem may have them), but the
    default ncv is at most n, so there is no room and no error (`C65_nep_many_refuted`).
  - Defaults are stored in the same variables as values of the user. If the object is used again with larger matrices,
    the former default counts as a value of the user and the setup may fail (`C65_reuse_refuted`, PEP).
  - DSSetDimensions tests `k>=0 || k<=n`: every k is accepted (`C66_k_refuted`).
  - n can be reduced below l if PETSC_CURRENT is given for l (`C66_locked_refuted`).
  - Read, not formalised: DSReset sets n, l, k to 0 but not t (dsbasic.c:933-935).

### SVD objects used several times (SVDReuse*): C67

* Modelled, for standard problems: SVDSetOperators (svdsetup.c:30-85), the part of SVDSetUp about the transpose, the swap
  of bases and the state (svdsetup.c:243-410), SVDAllocateSolution (svdsetup.c:522-567) as far as vector lengths go,
  SVDReset (svdbasic.c:134-156), options that invalidate the setup.
* Simplified: a basis is the length of its vectors; both bases are allocated (svd->leftbasis); local sizes equal global
  ones; bases provided by the user, initial vectors, dimensions (C65), and the reset by a change of SVDSetType are left
  out. Matrices are given by their size.
* Finding: SVDSetOperators resets the object only if `svd->state` is set. An option such as SVDSetDimensions clears it, so
  after solve, SVDSetDimensions, SVDSetOperators with another size, the object is not reset: the bases keep vectors of the
  former lengths (`C67_option_refuted`), and `swapped` may stay true for a matrix that is not transposed
  (`C67_swapped_refuted`). Two calls to SVDSetOperators in a row have the same effect.

### EPS and PEP objects used several times (Reuse*): C68

* Modelled: EPSSetOperators (epssetup.c:511-521) and PEPSetOperators (pepsetup.c:302-316), the state and size in EPSSetUp
  and PEPSetUp (epssetup.c:293, 317, 339, 451; pepsetup.c:112-117), EPSAllocateSolution (epssetup.c:739-779) and
  PEPAllocateSolution as far as the length of basis vectors goes, EPSReset, PEPReset, options that clear the state.
* Simplified: local sizes equal global ones; the left basis of two-sided solvers (a duplicate of V) and a basis given by
  the user are left out. Dimensions are C61, C65; the matrices inside ST are C37-C40.
* Finding: as for SVD, the object is reset for matrices of another size only if its state is set, and EPSSetDimensions,
  PEPSetDimensions and others clear it (`C68_option_refuted`): the setup succeeds with basis vectors of the former length,
  the solver fails later with incompatible sizes. NEPSetSplitOperator (nepbasic.c:873) has the same test (read).
