{"id": "C01", "title": "Array objects have value semantics under copy-on-write", "statement": "After any sequence of constructing, copy-constructing, assigning, destroying and writing (through ObtainWriteEntireData / ObtainWritePartialData / SetToZeros) of Element objects, reading any live object returns exactly the shape and entries it would have if every object owned a private array: no write through one object is ever visible through another.", "quantifier": "every finite history of operations over every number of objects, sizes and contents", "why_tests_cant": "sharing patterns grow with the history; a test fixes one history and one sharing pattern", "anchors": ["Manifolds/SmartSpace.cpp: NewMemoryOnWrite, CopyOnWrite, CopyTo, ~SmartSpace, Delete", "Manifolds/Element.cpp: ObtainWriteEntireData, ObtainWritePartialData, SetToZeros", "Manifolds/Element.h: copy constructor, operator="]}
{"id": "C02", "title": "Data blocks are released exactly once, by the last owner", "statement": "In every state reachable through that API the share counter of a data block equals the number of live objects using it, every allocated block has at least one owner, no operation touches a released block or releases one twice, and once all objects are destroyed no block is left allocated.", "quantifier": "every finite history of operations", "why_tests_cant": "leaks and double frees appear only for particular interleavings of assignments and destructions", "anchors": ["Manifolds/SmartSpace.cpp: NewMemoryOnWrite 24-40, CopyOnWrite 42-62, CopyTo 86-151, ~SmartSpace 181-202"]}
{"id": "C03", "title": "Assignment makes the target equal to the source, shape included", "statement": "After b = a, b has the shape and the entries of a, whatever b held or shared before.", "quantifier": "all pairs of live objects in every reachable state, including states in which an object was reshaped", "why_tests_cant": "the failing case needs two objects that already share storage but differ in shape", "anchors": ["Manifolds/SmartSpace.cpp: CopyTo 86-151 (early return at 88)", "Manifolds/Element.cpp: Reshape 1810"]}
{"id": "C04", "title": "In-place updates of one object never change another object", "statement": "Every in-place update method (scaling, axpy, SubmatrixAssignment, ScaledIdOPE, Conj, HaddRankone, Reshape) changes only the object it is called on.", "quantifier": "every reachable sharing state and every in-place method", "why_tests_cant": "the effect depends on whether the storage happens to be shared at the call", "anchors": ["Manifolds/Element.cpp: HaddRankone 1611-1639, Conj 1946, ScaledIdOPE 2854, AlphaXaddThis, ScalarTimesThis, SubmatrixAssignment 2232"]}
{"id": "C05", "title": "A cached decomposition always belongs to the current contents", "statement": "Whenever a decomposition (LU, Cholesky, QR, SVD, eigen, Schur) is requested, the factors returned are those of the object's current shape and contents, never of contents it had earlier.", "quantifier": "every history of writes, in-place updates, assignments and decomposition requests", "why_tests_cant": "staleness depends on the order of requests and updates", "anchors": ["Manifolds/Element.cpp: LUdecom, CholDecom, QRDecom, SVDDecom, EigenDecomSym, SchurForm, RemoveAllFromFields 2827, ScaledIdOPE 2854, Reshape 1810, Conj 1946, HaddRankone 1611"]}
{"id": "C06", "title": "Assignment copies exactly the attached fields of the source", "statement": "After b = a, b has exactly the attached data (fields) of a: same names, same values, at every nesting level, and nothing it had before.", "quantifier": "all field trees on both sides, of any depth", "why_tests_cant": "nested maps of arbitrary depth on both sides", "anchors": ["Manifolds/Element.cpp: CopyTo 2587-2630, CopyFieldsTo 2632-2649, AddToFields 2770"]}
{"id": "C07", "title": "Submatrix assignment touches exactly the addressed block", "statement": "SubmatrixAssignment(r0,r1,c0,c1,M) makes the block equal to M and leaves every other entry of the object as it was; GetSubmatrix on the same block then returns M.", "quantifier": "all matrix sizes, block positions, contents, and sharing states of the receiver", "why_tests_cant": "index arithmetic over unbounded sizes, and a sharing-dependent allocation", "anchors": ["Manifolds/Element.cpp: GetSubmatrix 2202-2230, SubmatrixAssignment 2232-2260"]}
{"id": "C08", "title": "Components of a product object are consecutive disjoint slices covering it", "statement": "In a product object component j occupies exactly the slice of the parent data starting at the total length of the components before it; slices are disjoint, cover the parent, and stay attached to the parent's current storage after every operation.", "quantifier": "all component lists (any number of types, multiplicities and sizes) and every history of operations on the parent", "why_tests_cant": "depends on which operation last reallocated the parent storage", "anchors": ["Manifolds/Element.cpp: ResetMultiElementsParams 2890-3012, Element(integer, Element*, integer*) 2382, ObtainWritePartialData 2678"]}
{"id": "C09", "title": "Matrix transpose is entrywise correct and an involution", "statement": "GetTranspose returns the matrix whose (i,j) entry is the (conjugated, for complex) (j,i) entry; transposing twice gives back the original.", "quantifier": "all row and column counts and contents, real and complex", "why_tests_cant": "index arithmetic over unbounded sizes", "anchors": ["Manifolds/Element.cpp: GetTranspose 2262-2295"]}
{"id": "C10", "title": "Haar wavelet transform is inverted exactly by its inverse and preserves energy", "statement": "For every length, the inverse one- and two-dimensional Haar transforms recover the input of the forward transform, and the forward transform preserves the sum of squares.", "quantifier": "all lengths (and row/column counts) and all real inputs", "why_tests_cant": "loops over levels of unbounded depth", "anchors": ["Others/wavelet/wavelet.cpp: haarFWT_1d, haarFWT_1d_inverse, haarFWT_2d, haarFWT_2d_inverse"]}
{"id": "C11", "title": "Sparse matrix products agree with the dense matrix of inserted entries", "statement": "After inserting any list of (value,row,column) triplets, in any order and with duplicates, multiplying by a vector adds alpha times the product with the dense matrix whose (i,j) entry is the sum of the values inserted at (i,j); the transposed product uses the transpose of the same matrix.", "quantifier": "all dimensions, all triplet lists, all vectors, all scalars and strides", "why_tests_cant": "arbitrary triplet multisets", "anchors": ["Others/SparseBLAS/nist_spblas.h: TSp_mat::insert_entry, usmv, mult, mult_trans", "Others/SparseMatrix.cpp"]}
{"id": "C12", "title": "Sparse matrix handles stay valid and distinct", "statement": "A handle returned by matrix creation refers to that matrix until it is destroyed, whatever other matrices are created or destroyed meanwhile; live handles are pairwise distinct; slots of destroyed matrices are reused.", "quantifier": "every interleaving of creations and destructions", "why_tests_cant": "depends on the history of creations and destructions", "anchors": ["Others/SparseBLAS/nist_spblas.cpp: Table_insert 53-75, Table_remove, GetSpMFromTable, BLAS_usds"]}
{"id": "C13", "title": "Sparse triangular solve solves the system", "statement": "For a triangular sparse matrix with nonzero diagonal, the solve routine overwrites x by alpha times the solution of the triangular system (lower, upper and transposed).", "quantifier": "all sizes, sparsity patterns and right-hand sides", "why_tests_cant": "unbounded substitution loops", "anchors": ["Others/SparseBLAS/nist_spblas.h: triangular_solve, transpose_triangular_solve"]}
{"id": "C14", "title": "Block insertion into a sparse matrix places every entry of the block", "statement": "Inserting a dense block at block position (I,J) inserts entry (r,c) of the block at row/column offset (r,c) from the block's origin.", "quantifier": "all block sizes, strides and positions", "why_tests_cant": "index arithmetic over unbounded block sizes", "anchors": ["Others/SparseBLAS/nist_spblas.h: insert_block, set_var_block_parameters"]}
{"id": "C15", "title": "Every spline piece interpolates its two data points", "statement": "The coefficients computed by SplineSlopes / SplineUniformSlopes (and, whatever second derivatives are obtained, by the periodic variants) give on each interval a cubic taking the prescribed values at both ends.", "quantifier": "all numbers of points, abscissae and values", "why_tests_cant": "unbounded number of intervals, all real values", "anchors": ["Others/Spline.cpp: SplineUniformSlopes 104-149, SplineSlopes 151-197"]}
{"id": "C16", "title": "Splines with prescribed slopes are twice continuously differentiable and match the end slopes", "statement": "When the routine reports success, adjacent pieces agree in value, first and second derivative at each interior break, and the first derivative at the two ends is the prescribed slope.", "quantifier": "all numbers of points, abscissae, values and slopes", "why_tests_cant": "needs the tridiagonal solve to be right for every size", "anchors": ["Others/Spline.cpp: SplineSlopes 151-197, SolveTridiagonalSystem 199-226"]}
{"id": "C17", "title": "Tridiagonal solver is correct whenever it reports success", "statement": "If SolveTridiagonalSystem returns success, the vector it produces solves the tridiagonal system it was given.", "quantifier": "all sizes and coefficients", "why_tests_cant": "elimination loop of unbounded length", "anchors": ["Others/Spline.cpp: SolveTridiagonalSystem 199-226"]}
{"id": "C18", "title": "Spline evaluation uses the piece containing the argument", "statement": "Evaluating a spline at t inside its range returns the value at t of the cubic piece whose interval contains t.", "quantifier": "all break sequences and arguments", "why_tests_cant": "the failing case needs a first break different from zero", "anchors": ["Others/Spline.cpp: ValSpline 290-304, ValSplineUniform 306-320"]}
{"id": "C19", "title": "Periodic splines are smooth across every break and across the period", "statement": "SplineUniformPeriodic / SplinePeriodic return a curve interpolating the data and twice continuously differentiable, including across the wrap-around.", "quantifier": "all numbers of points and values", "why_tests_cant": "a storage overlap corrupts one coefficient for every size; tests that only look at interpolated values pass", "anchors": ["Others/Spline.cpp: SplineUniformPeriodic, SplinePeriodic 6-102, SolvePeriodicSystem 228-288"]}
{"id": "C20", "title": "Derivative coefficient routines give the derivative of the spline", "statement": "FirstDeri / SecondDeri coefficients evaluated by ValFirstDeri / ValSecondDeri are the first and second derivative of each cubic piece.", "quantifier": "all coefficients and arguments", "why_tests_cant": "all real inputs", "anchors": ["Others/Spline.cpp: FirstDeri, SecondDeri, ValFirstDeri, ValSecondDeri 322-405"]}
{"id": "C21", "title": "Line-search solver loop is bounded and records stay in bounds", "statement": "A run performs at most max(Max_Iteration, Min_Iteration) iterations for any objective, gradient, direction and step rule, and never writes outside the per-iteration history arrays of length 1 + Max_Iteration.", "quantifier": "all oracles (objective, gradient, line search outcomes), all arithmetic behaviours including NaN, all parameter values", "why_tests_cant": "depends on every possible sequence of oracle answers", "anchors": ["Solvers/SolversSMLS.cpp: Run 7-154", "Solvers/Solvers.cpp: Run"]}
{"id": "C22", "title": "A NaN or infinite candidate never replaces the last good iterate", "statement": "If the function value at a candidate is NaN or infinite the run stops and returns the last iterate with its own function value; the returned function value is always the one computed at the returned point.", "quantifier": "all oracle behaviours and histories", "why_tests_cant": "the bad value may appear at any iteration", "anchors": ["Solvers/SolversSMLS.cpp: Run 7-154 (NaN check)", "Solvers/SolversSMTR.cpp: Run 7-120"]}
{"id": "C23", "title": "Armijo success means sufficient decrease against the recent maximum", "statement": "Whenever the backtracking line search reports success, f at the new point is at most the largest of the last Num_pre_funs accepted values plus LS_alpha * stepsize * initial slope, and the reported new point is the retraction at the reported stepsize.", "quantifier": "all objectives (any oracle), arithmetic and parameters", "why_tests_cant": "any number of backtracking steps", "anchors": ["Solvers/SolversSMLS.cpp: LinesearchArmijo 307-391"]}
{"id": "C24", "title": "The nonmonotone reference window holds exactly the latest accepted values", "statement": "At every iteration the list of reference values is the last min(k+1, Num_pre_funs) accepted function values, newest first; with monotone settings it is just the current value.", "quantifier": "every run length and window size", "why_tests_cant": "depends on run history", "anchors": ["Solvers/SolversSMLS.cpp: Run (pre_funs update)"]}
{"id": "C25", "title": "Backtracking line searches terminate", "statement": "Armijo backtracking, strong-Wolfe and zoom searches terminate after a bounded number of function evaluations for every objective, including ones returning NaN; the same holds for the Wolfe search.", "quantifier": "all oracles and arithmetic", "why_tests_cant": "non-termination needs adversarial oracles", "anchors": ["Solvers/SolversSMLS.cpp: LinesearchArmijo, LinesearchStrongWolfe, Zoom, LinesearchWolfe 688-808"]}
{"id": "C26", "title": "Strong Wolfe success means both strong Wolfe conditions hold", "statement": "Whenever the strong Wolfe search reports success, sufficient decrease and the absolute curvature condition hold at the returned stepsize, and the returned point, value and slope are those at that stepsize.", "quantifier": "all oracles, arithmetic and parameters", "why_tests_cant": "unbounded bracketing and zooming", "anchors": ["Solvers/SolversSMLS.cpp: LinesearchStrongWolfe 482-517, Zoom 519-564"]}
{"id": "C27", "title": "Wolfe success means both Wolfe conditions hold", "statement": "Whenever the Wolfe search reports success, sufficient decrease and the curvature condition hold at the returned stepsize.", "quantifier": "all oracles, arithmetic and parameters", "why_tests_cant": "the doubling counter gives up silently after a number of steps", "anchors": ["Solvers/SolversSMLS.cpp: LinesearchWolfe 688-808"]}
{"id": "C28", "title": "The reported stepsize is the one that produced the returned point", "statement": "After every line search, the new point equals the retraction of stepsize times the direction, for every status the search can return.", "quantifier": "all oracles and exits of the searches", "why_tests_cant": "failing exits need extreme step sequences", "anchors": ["Solvers/SolversSMLS.cpp: LinesearchArmijo 307-391, Zoom 519-564, LinesearchWolfe"]}
{"id": "C29", "title": "The trust-region radius stays within its bounds", "statement": "In exact arithmetic, starting from an initial radius in (0, maximum_Delta], the radius is always positive and at most maximum_Delta, and every radius used for a step is at least minimum_Delta.", "quantifier": "all oracle behaviours and run lengths", "why_tests_cant": "depends on all accept/shrink/expand histories", "anchors": ["Solvers/SolversSMTR.cpp: Run 7-120"]}
{"id": "C30", "title": "Trust-region runs never move to a worse point when the model predicts decrease", "statement": "An accepted step, when the model value decreases, has a smaller function value than the current point; after a rejected step point and value are unchanged; hence function values along the run are non-increasing.", "quantifier": "all oracle behaviours and run lengths", "why_tests_cant": "depends on all histories", "anchors": ["Solvers/SolversSMTR.cpp: Run 7-120"]}
{"id": "C31", "title": "The inner truncated CG step never leaves the trust region", "statement": "The step returned by the truncated conjugate gradient solver has norm at most the radius, with equality when it stops on the boundary or on negative curvature.", "quantifier": "all symmetric Hessian operators in all inner-product spaces, all gradients, radii and iteration limits", "why_tests_cant": "unbounded dimension and iteration count", "anchors": ["Solvers/SolversSMTR.cpp: tCG_TR 143-243"]}
{"id": "C32", "title": "The inner truncated CG step does not increase the quadratic model", "statement": "The quadratic model at the returned step is at most its value at zero, and never worse than at the first (Cauchy) iterate.", "quantifier": "all symmetric operators, gradients, radii, iteration limits", "why_tests_cant": "unbounded dimension and iteration count", "anchors": ["Solvers/SolversSMTR.cpp: tCG_TR 143-243"]}
{"id": "C33", "title": "Trust-region function history lists the values of the iterates", "statement": "Entry k of the recorded function series is the function value at the k-th iterate.", "quantifier": "all runs", "why_tests_cant": "only wrong on runs with rejections", "anchors": ["Solvers/SolversSMTR.cpp: Run (funSeries)"]}
{"id": "C34", "title": "A normal stop means the selected criterion holds", "statement": "When a run ends because of its stopping test, the test selected by Stop_Criterion holds of the last function values / gradient norms, or the time bound was exceeded, or the user's predicate returned true.", "quantifier": "all criteria, values and arithmetic", "why_tests_cant": "all values incl. NaN", "anchors": ["Solvers/SolversSM.cpp: IsStopped 53-72"]}
{"id": "C35", "title": "SetParams changes exactly the named parameters to exactly the given values", "statement": "After SetParams with any map, each recognised name has the given value, every other parameter is unchanged, and unknown names are ignored.", "quantifier": "all maps of names to values", "why_tests_cant": "all parameter names and values", "anchors": ["Solvers/SolversSMLS.cpp: SetParams 810", "Solvers/SolversNSMPGLS.cpp: SetParams 105-131", "Solvers/Solvers.cpp: SetParams", "Solvers/LRBFGS.cpp: SetParams"]}
{"id": "C36", "title": "L-BFGS memory holds exactly the latest correction pairs, oldest first", "statement": "After any sequence of accepted and skipped updates, the circular memory read from its begin index yields the last min(k, LengthSY) accepted pairs in order, each transported once per iteration since.", "quantifier": "every update history and memory length", "why_tests_cant": "wrap-around behaviour over unbounded histories", "anchors": ["Solvers/LRBFGS.cpp: UpdateData 175-233, HvLRBFGS 145-168"]}
{"id": "C37", "title": "The L-BFGS two-loop product equals the recursive BFGS inverse update", "statement": "The search direction computed by the two-loop recursion equals applying the matrix obtained from gamma*I by the BFGS inverse update formula for the stored pairs, oldest first; this operator is symmetric, and positive definite when every stored pair has positive curvature and gamma>0.", "quantifier": "all inner-product spaces, memory lengths, pairs and vectors", "why_tests_cant": "unbounded memory and dimension", "anchors": ["Solvers/LRBFGS.cpp: HvLRBFGS 145-168"]}
{"id": "C38", "title": "The BFGS inverse update satisfies the secant equation and keeps symmetry and positive definiteness", "statement": "When the update is performed, the new inverse Hessian approximation maps y to s, is symmetric, and is positive definite if the old one was and <s,y> > 0.", "quantifier": "all dimensions, operators and pairs", "why_tests_cant": "all real operators", "anchors": ["Solvers/RBFGS.cpp: UpdateData 136-163", "Solvers/RWRBFGS.cpp: UpdateData 134-161"]}
{"id": "C39", "title": "SR1 and Broyden-family updates satisfy the secant equation", "statement": "When performed, the SR1 update maps s to y and the Broyden family inverse update maps y to s for every value of phi.", "quantifier": "all dimensions, operators, pairs and phi", "why_tests_cant": "all real operators", "anchors": ["Solvers/RTRSR1.cpp: UpdateData", "Solvers/RBroydenFamily.cpp: UpdateData 135-170"]}
{"id": "C40", "title": "Running the same solver object twice equals running a fresh one", "statement": "Calling Run() a second time on the same solver object, with unchanged settings, gives the same result as a fresh solver.", "quantifier": "all problems and histories of earlier runs", "why_tests_cant": "depends on state left by any earlier run", "anchors": ["Solvers/LRBFGS.cpp: Run", "Solvers/LRTRSR1.cpp: Run", "Solvers/Solvers.cpp"]}
{"id": "C41", "title": "Conjugate gradient directions are restarted to descent directions", "statement": "Every direction used by RCG has negative inner product with the gradient unless the gradient vanishes.", "quantifier": "all beta rules and histories", "why_tests_cant": "depends on history", "anchors": ["Solvers/RCG.cpp: GetSearchDir"]}
{"id": "C42", "title": "Initial step sizes are positive and bounded as documented", "statement": "For a descent direction each initial stepsize rule yields a positive stepsize not above Maxstepsize when the guards apply.", "quantifier": "all rules, iterations and values", "why_tests_cant": "all real values and NaN", "anchors": ["Solvers/SolversSMLS.cpp: InitialStepSize 199-305"]}
{"id": "C43", "title": "ManPG's retry loop terminates", "statement": "When the line search fails, tolerances are tightened and the step retried; the number of retries without progress is bounded independently of the problem.", "quantifier": "all oracles", "why_tests_cant": "needs adversarial oracle", "anchors": ["Solvers/ManPG.cpp: Run 22-149"]}
{"id": "C44", "title": "The accelerated proximal method's safeguard keeps the accepted values non-increasing", "statement": "The function values at the safeguard points of AManPG never increase when the safeguard step is a descent step, and a NaN value is never accepted.", "quantifier": "all oracles", "why_tests_cant": "depends on acceleration history", "anchors": ["Solvers/AManPG.cpp: Run 91-252"]}
{"id": "C45", "title": "Nonsmooth subgradient line-search runs respect the iteration limit", "statement": "A run of the epsilon-subgradient solvers performs at most Max_Iteration outer steps and terminates.", "quantifier": "all oracles", "why_tests_cant": "non-termination needs special oracle answers", "anchors": ["Solvers/SolversNSMSubLS.cpp: Run 6-114"]}
{"id": "C46", "title": "Newton's inner CG returns the Newton step when it converges", "statement": "If the inner conjugate gradient iteration of RNewton stops because the residual is small enough, the returned direction is the CG iterate with that residual.", "quantifier": "all operators", "why_tests_cant": "failing case converges in the first inner step", "anchors": ["Solvers/RNewton.cpp: tCG_LS"]}
{"id": "C47", "title": "Tangent-space arithmetic may write its result onto an operand", "statement": "ScalarVectorAddVector, VectorLinearCombination and ScalarTimesVector return the same vector whether result is a fresh object or one of the operands.", "quantifier": "all scalars and vectors, all alias patterns", "why_tests_cant": "alias pattern dependent", "anchors": ["Manifolds/Manifold.cpp: ScalarTimesVector, ScalarVectorAddVector, VectorLinearCombination"]}
{"id": "C48", "title": "The locking-condition vector transport is an isometry mapping the step to beta times its derivative", "statement": "With an isometric base transport, the locking-condition transport preserves norms, maps eta to beta T_R eta, and its inverse undoes it.", "quantifier": "all inner-product spaces and vectors", "why_tests_cant": "all real vectors", "anchors": ["Manifolds/Manifold.cpp: Obtainnu1nu2forLC, LCVectorTransport, LCInverseVectorTransport"]}
{"id": "C49", "title": "Transported operators are conjugated by the vector transport", "statement": "TranHInvTran(H) applied to the transport of v equals the transport of H v.", "quantifier": "all operators and vectors", "why_tests_cant": "all real matrices", "anchors": ["Manifolds/Manifold.cpp: LCTranHInvTran, LCTranH, LCHInvTran, HaddScaledRank1OPE", "Manifolds/Sphere.cpp: ExpHInvTran, ExpTranH"]}
{"id": "C50", "title": "The sphere exponential map stays on the sphere", "statement": "For a unit vector x and tangent eta, the exponential retraction has unit norm, and the zero tangent vector gives back x.", "quantifier": "all dimensions and tangent vectors", "why_tests_cant": "zero vector is the failing case", "anchors": ["Manifolds/Sphere.cpp: ExpRetraction"]}
{"id": "C51", "title": "Sphere parallel translation is an invertible isometry between tangent spaces", "statement": "For unit non-antipodal x,y, parallel translation maps tangent vectors at x to tangent vectors at y, preserves inner products, and the inverse translation undoes it.", "quantifier": "all dimensions, points and vectors", "why_tests_cant": "all real vectors", "anchors": ["Manifolds/Sphere.cpp: ExpVectorTransport, ExpInverseVectorTransport"]}
{"id": "C52", "title": "Stiefel/Grassmann tangent projections are orthogonal projections", "statement": "For x with orthonormal columns the projection lands in the tangent space, is the identity on it, and is self-adjoint.", "quantifier": "all sizes n,p, points and matrices", "why_tests_cant": "unbounded sizes", "anchors": ["Manifolds/Stiefel.cpp: ExtrProjection", "Manifolds/Grassmann.cpp: ExtrProjection"]}
{"id": "C53", "title": "Intrinsic and extrinsic representations are inverse isometries", "statement": "ObtainExtr(ObtainIntr(v)) = v for tangent v, ObtainIntr(ObtainExtr(c)) = c, and both preserve inner products (SPD, Stiefel).", "quantifier": "all sizes and vectors", "why_tests_cant": "packing loops over unbounded sizes", "anchors": ["Manifolds/SPDManifold.cpp: ObtainIntrEuc, ObtainExtrEuc, ObtainIntrAF, ObtainExtrAF", "Manifolds/Stiefel.cpp: ObtainIntrHHR, ObtainExtrHHR"]}
{"id": "C54", "title": "SPD distance is zero exactly at the point itself; parallel translation is isometric", "statement": "Dist(x,x)=0 on the SPD manifold with the affine-invariant metric, and parallel translation preserves norms.", "quantifier": "all points and vectors", "why_tests_cant": "n.a.: violated for every input, yet not observable through optimisation results", "anchors": ["Manifolds/SPDManifold.cpp: DistAF, ParallelTranslation"]}
{"id": "C55", "title": "Product-manifold operations act componentwise and leave the configuration unchanged", "statement": "The metric of a product is the sum of component metrics; operations do not change the components' intrinsic/extrinsic setting; TranHInvTran depends only on its inputs.", "quantifier": "all component lists and settings", "why_tests_cant": "setting dependent", "anchors": ["Manifolds/MultiManifolds.cpp: Metric, Retraction, TranHInvTran"]}
{"id": "C56", "title": "The user's initial Hessian approximation is not modified by a run", "statement": "Running a quasi-Newton solver leaves the matrix passed as initial Hessian approximation unchanged.", "quantifier": "all problems and runs", "why_tests_cant": "depends on storage sharing", "anchors": ["Solvers/RBFGS.cpp", "Manifolds/Manifold.cpp: HaddScaledRank1OPE", "Manifolds/Element.cpp: HaddRankone"]}
{"id": "C57", "title": "The numerical gradient perturbs one coordinate at a time", "statement": "Entry i of the finite-difference gradient is (f(x + eps e_i) - f(x))/eps, and x itself is unchanged.", "quantifier": "all dimensions, objectives and points", "why_tests_cant": "in-place perturb/restore loop of unbounded length", "anchors": ["Problems/Problem.cpp: EucGrad 113-146"]}
{"id": "C58", "title": "The Riemannian Hessian conversions agree where metrics coincide", "statement": "On the unit sphere (Stiefel with p=1) the canonical and Euclidean metrics coincide, so the Hessian conversions of the two metrics agree.", "quantifier": "all points, gradients and directions", "why_tests_cant": "all real vectors", "anchors": ["Manifolds/Stiefel.cpp: EucHvToHv"]}
{"id": "C59", "title": "The reported gradient norm belongs to the returned point", "statement": "When a line-search solver returns, the gradient it holds is the gradient at the returned point and the reported gradient norm is its norm.", "quantifier": "every objective, direction rule, line search, parameter setting and number of iterations", "why_tests_cant": "the gradient is refreshed on some exits of the line searches only; a test exercises few exits", "anchors": ["Solvers/SolversSMLS.cpp: Run, LinesearchWolfe, Zoom", "Solvers/SolversSM.cpp: Getnormgf"]}
{"id": "C60", "title": "Trust-region runs return a consistent triple", "statement": "When a trust-region solver returns, the function value, gradient and gradient norm it reports were computed at the returned point, which is the newest accepted iterate; a candidate whose value is NaN or infinite is never returned; the number of iterations is at most the larger of the two iteration limits.", "quantifier": "every manifold, objective, inner solver, parameter setting and number of iterations, including rejected steps, radius underflow and NaN candidates", "why_tests_cant": "points and gradients are swapped back and forth on every path; a test exercises few accept/reject histories", "anchors": ["Solvers/SolversSMTR.cpp: Run 7-120", "Solvers/SolversSM.h: Getnormgf", "Solvers/Solvers.h: GetXopt, Getfinalfun"]}
{"id": "C61", "title": "Trust-region runs end and record inside their arrays", "statement": "The trust-region loop ends within max(Max_Iteration, Min_Iteration) passes, and the histories are written only at valid indices.", "quantifier": "every manifold, objective, inner solver and parameter setting", "why_tests_cant": "depends on all accept/reject histories and parameter combinations", "anchors": ["Solvers/SolversSMTR.cpp: Run 7-120", "Solvers/SolversSM.cpp: Run"]}
{"id": "C62", "title": "A converged inner solve satisfies its residual test", "statement": "When the truncated conjugate gradient solver reports linear or superlinear convergence, the norm of g + H v at the returned step v is at most the norm of g times kappa and times its theta-th power; it never reports the error status in exact arithmetic.", "quantifier": "all symmetric operators, gradients, radii and preconditioners", "why_tests_cant": "the residual is updated recursively, never recomputed", "anchors": ["Solvers/SolversSMTR.cpp: tCG_TR 143-243"]}
{"id": "C63", "title": "Spline fitting with end slopes succeeds on every proper sequence of abscissae", "statement": "SplineSlopes on strictly increasing abscissae, and SplineUniformSlopes with positive spacing, report success whenever the end intervals are not within a few machine epsilons of zero.", "quantifier": "all numbers of points, increasing abscissae and values", "why_tests_cant": "The pivots depend on every spacing; success for all sequences needs a diagonal-dominance induction.", "anchors": ["Others/Spline.cpp: Spline::SplineSlopes, Spline::SplineUniformSlopes, Spline::SolveTridiagonalSystem"]}
{"id": "C64", "title": "Indexed vector operations of the sparse BLAS", "statement": "The dot product of an indexed vector with a full vector is the sum of the products at the given indices; gathering reads the entries at the indices in order; gathering with zeroing also sets exactly those entries to zero; scattering writes the values at the indices and nothing else; axpy adds alpha times the indexed vector to the full vector. Indices are zero- or one-based.", "quantifier": "all lengths, index lists, strides, bases and values", "why_tests_cant": "Index arithmetic over unbounded lists, strides and both index bases.", "anchors": ["Others/SparseBLAS/nist_spblas.cpp: BLAS_xusdot, BLAS_xusaxpy, BLAS_xusga, BLAS_xusgz, BLAS_xussc"]}
{"id": "C65", "title": "Declared structure of a sparse matrix is honoured by products", "statement": "A matrix declared triangular, symmetric, Hermitian or unit-diagonal multiplies vectors and sets of vectors as the matrix that the declaration and the inserted entries stand for (the other half of a symmetric or Hermitian matrix is implied, a unit diagonal need not be inserted).", "quantifier": "all sizes, property lists, triplet lists, operands, scalars, strides and storage orders", "why_tests_cant": "Arbitrary combinations of properties and insertions.", "anchors": ["Others/SparseBLAS/nist_spblas.h: TSp_mat::insert_entry, usmv, usmm, mult_vec, mult_diag", "Others/SparseBLAS/nist_spblas.cpp: BLAS_ussp"]}
{"id": "C66", "title": "Newton directions are descent directions", "statement": "Whatever the Hessian, the direction RNewton hands to the line search has negative inner product with the gradient, unless the gradient vanishes.", "quantifier": "all self-adjoint Hessians (indefinite included), preconditioners, parameters and dimensions", "why_tests_cant": "Needs every operator and every stopping reason of the inner iteration.", "anchors": ["Solvers/RNewton.cpp: GetSearchDir, tCG_LS"]}
{"id": "C67", "title": "RCG reduces to linear conjugate gradients", "statement": "On a strictly convex quadratic in Euclidean space with exact line searches, all six RCG rules generate the directions of the textbook conjugate gradient method: gradients are mutually orthogonal and directions mutually conjugate.", "quantifier": "all dimensions, quadratics, starting points, rules and iteration numbers", "why_tests_cant": "Induction over the whole history, equality of six formulas.", "anchors": ["Solvers/RCG.cpp: UpdateData, GetSearchDir"]}
{"id": "C68", "title": "ManPG never accepts a step that increases the objective", "statement": "The objective values of the iterates of ManPG form a non-increasing sequence and are the objective's values at those iterates.", "quantifier": "all composite objectives, proximal maps, retractions and iteration numbers", "why_tests_cant": "Needs objectives whose proximal direction is an ascent direction of the smooth part.", "anchors": ["Solvers/ManPG.cpp: Run", "Solvers/SolversNSMPGLS.cpp: LinesearchArmijo"]}
{"id": "C69", "title": "Subgradient solvers test the direction they computed", "statement": "The direction length that the stopping test and the shrinking of Eps and Del use is the length of the direction computed in the same pass.", "quantifier": "all problems, histories and parameter values", "why_tests_cant": "An uninitialised or stale value often happens to give the right branch.", "anchors": ["Solvers/SolversNSMSubLS.cpp: GetSearchDir, Run"]}
{"id": "C70", "title": "A successful Wolfe-Lipschitz line search satisfies both conditions", "statement": "When the line search of the subgradient solvers reports success, the accepted point is the retraction of the reported step, sufficient decrease and the curvature condition hold there, and its value and gradient are the stored ones.", "quantifier": "all objectives, slopes and parameters", "why_tests_cant": "Must hold on every path through the two loops.", "anchors": ["Solvers/SolversNSMSubLS.cpp: LinesearchWolfeLipschitz, ZoomLP"]}
{"id": "C71", "title": "A manifold's parameter map takes effect completely", "statement": "After SetParams with ParamSet the manifold has the documented settings of that set; HasHHR given in the same map is in force too; settings that are not named stay.", "quantifier": "all maps, parameter sets and previous settings", "why_tests_cant": "Combinations of names in one map.", "anchors": ["Manifolds/Manifold.cpp: SetParams 306", "Manifolds/Stiefel.cpp: SetParams 965", "Manifolds/Sphere.cpp: SetParams 252", "Manifolds/CStiefel.cpp: SetParams 692", "Manifolds/SymFixedRankQ.cpp: SetParams 22", "Manifolds/CSymFixedRankQ.cpp: SetParams 26"]}
{"id": "C72", "title": "A component behaves like a range of its own product's value", "statement": "Assigning or writing a component of a product element changes exactly that range of the product and no other variable; assigning, copying or writing a whole product never changes another variable.", "quantifier": "all programs of constructions, copies, assignments, component assignments, writes and destructions of product elements", "why_tests_cant": "Which variables share storage depends on the whole history.", "anchors": ["Manifolds/Element.cpp: CopyTo 2587, ResetMultiElementsParams 2890, DeleteMultiElements 3014, NewMemoryOnWrite 2684, CopyOnWrite 2691", "Manifolds/Element.h: GetElement 555, operator= 187", "Manifolds/SmartSpace.cpp: CopyTo 86, NewMemoryOnWrite 24, CopyOnWrite 42"]}
{"id": "C73", "title": "Entrywise element arithmetic is field arithmetic", "statement": "Sums, differences, scalar and Hadamard products and quotients, conjugates, maxima and minima of elements are those of the real, resp. complex, numbers their entries stand for; a quotient times its divisor is the dividend.", "quantifier": "all lengths and contents, real and complex (in exact arithmetic)", "why_tests_cant": "Algebraic laws over all values and lengths.", "anchors": ["Manifolds/Element.cpp: operators 190-700, GetHadamardProduct, GetHadamardDivision, GetConj 1946, GetMax, GetMin"]}
{"id": "C74", "title": "Identity, diagonal scaling and column norms are entrywise correct", "statement": "SetToIdentity and ScaledIdOPE give the (scaled) identity of the element's shape; GetDiagTimesM multiplies row i (side L) or column i (side R) by entry i, so (D M)^T = M^T D; the squared column norms sum to the squared Frobenius norm.", "quantifier": "all row and column counts and contents", "why_tests_cant": "Index arithmetic over unbounded sizes.", "anchors": ["Manifolds/Element.cpp: SetToIdentity 2567, ScaledIdOPE 2854, GetDiagTimesM 1506, GetColNormsSquare 2496, GetColDotProducts 2512"]}
{"id": "C75", "title": "Conversions between real and complex matrices keep the entries", "statement": "GetRealToComplex gives the complex matrix with the given real part and zero imaginary part; GetRealInComplex gives the matrix of real parts.", "quantifier": "all sizes and contents", "why_tests_cant": "Layout of every entry.", "anchors": ["Manifolds/Element.cpp: GetRealToComplex 2529, GetRealInComplex 2543, GetImagInComplex 2555"]}
{"id": "C76", "title": "x += y changes x", "statement": "After x += y (x -= y) the element x holds the old x plus (minus) y.", "quantifier": "all elements of equal shape", "why_tests_cant": "A parameter-passing mode seen only through the caller's variable.", "anchors": ["Manifolds/Element.cpp: operator+= 217, operator-= 293"]}
{"id": "C77", "title": "Retractions stay on the Stiefel manifold and move along the given direction", "statement": "For a point x with orthonormal columns and a tangent vector eta, the qf, polar and Cayley retractions return a matrix with orthonormal columns; the zero vector gives back x; the curve R(t eta) agrees with x + t eta up to second order. The qf value is the Q factor whose R has a positive diagonal, the polar value the unitary factor of the polar decomposition.", "quantifier": "all sizes n >= p, all points and tangent vectors, all correct QR and SVD routines, in exact arithmetic", "why_tests_cant": "All points, directions and sizes; a rate of approximation.", "anchors": ["Manifolds/Stiefel.cpp: qfRetraction 440, PolarRetraction 564, CayleyRetraction 725"]}
{"id": "C78", "title": "The polar retraction is the nearest point", "statement": "No matrix with orthonormal columns is nearer to x + eta than the polar retraction's value.", "quantifier": "all sizes, points, vectors and orthonormal competitors", "why_tests_cant": "Optimality over a continuum of competitors.", "anchors": ["Manifolds/Stiefel.cpp: PolarRetraction 564"]}
{"id": "C79", "title": "The differentiated retractions are the derivatives", "statement": "DiffRetraction for the qf and polar retractions returns the unique tangent vector at the new point that solves the linearised decomposition; for the Cayley retraction it is the derivative of the curve in the given direction.", "quantifier": "all sizes, points, tangent vectors; for polar and Cayley directions c eta with c >= 0", "why_tests_cant": "Derivative for all points and directions.", "anchors": ["Manifolds/Stiefel.cpp: DiffqfRetraction 508, DiffPolarRetraction 598, DiffCayleyRetraction 816"]}
{"id": "C80", "title": "The cotangent vector is the adjoint of the differentiated retraction", "statement": "<xi, DR_x(eta)[v]> = <coTangentVector(x, eta, y, xi), v> for all tangent v at x and xi at y.", "quantifier": "all sizes, points and vectors", "why_tests_cant": "An identity over all vectors.", "anchors": ["Manifolds/Stiefel.cpp: qfcoTangentVector 468", "Manifolds/Grassmann.cpp: coTangentVector 135"]}
{"id": "C81", "title": "The Cayley vector transport is an invertible isometry between tangent spaces", "statement": "The Cayley transport preserves the Euclidean and the canonical inner product, maps tangent vectors at x to tangent vectors at R_x(eta), and CayleyInverseVectorTransport undoes it in both orders.", "quantifier": "all sizes, points, tangent directions and vectors", "why_tests_cant": "All points and vectors.", "anchors": ["Manifolds/Stiefel.cpp: CayleyVectorTransport 883, CayleyInverseVectorTransport 924"]}
{"id": "C82", "title": "The inverse polar retraction undoes the polar retraction", "statement": "InvPolarRetraction(x, R_x(eta)) = eta for tangent eta, and R_x of its value is y where the solution of its Sylvester equation is positive definite.", "quantifier": "all sizes, points and tangent vectors", "why_tests_cant": "All points and vectors.", "anchors": ["Manifolds/Stiefel.cpp: InvPolarRetraction 581", "Manifolds/Element.cpp: SYL 1427"]}
{"id": "C83", "title": "On Grassmann, the differentiated retraction returns horizontal vectors", "statement": "The vector DiffRetraction returns lies in the horizontal space at the new point.", "quantifier": "all sizes, points and horizontal vectors, both representations", "why_tests_cant": "All points and vectors.", "anchors": ["Manifolds/Grassmann.cpp: DiffRetraction 79, ObtainIntr 212"]}
{"id": "C84", "title": "The sphere differentiated exponential map is the derivative of the exponential map, and the cotangent map its adjoint", "statement": "For a unit vector x and tangent vectors eta (nonzero) and xi, the differentiated exponential retraction at eta applied to xi equals the derivative at t = 0 of the exponential retraction of eta + t xi, is tangent at the new point, and the cotangent map is its adjoint under the dot product.", "quantifier": "all dimensions, points and tangent vectors", "why_tests_cant": "a derivative identity over a continuum of points and directions", "anchors": ["Manifolds/Sphere.cpp: ExpDiffRetraction, ExpcoTangentVector"]}
{"id": "C85", "title": "Exponential map and parallel translation on the sphere satisfy the locking condition", "statement": "On the sphere with the exponential map and parallel translation, the parallel translate of the step equals the differentiated retraction of the step along itself, with the norm of the step, so that no Householder correction is needed.", "quantifier": "all dimensions, points and nonzero steps not ending at the antipode", "why_tests_cant": "an identity between transcendental expressions over a continuum of inputs", "anchors": ["Manifolds/Sphere.cpp: ChooseParamsSet2, ExpVectorTransport, ExpDiffRetraction"]}
{"id": "C86", "title": "The affine-invariant metric is an inner product and projection gives the nearest symmetric matrix", "statement": "On the manifold of symmetric positive definite matrices Metric is trace(x^-1 eta x^-1 xi): symmetric, and positive for every nonzero tangent vector. Projection returns the nearest symmetric matrix.", "quantifier": "all sizes, points and tangent vectors", "why_tests_cant": "infinitely many points and directions", "anchors": ["Manifolds/SPDManifold.cpp: Metric 58-71, ExtrProjection 93-108"]}
{"id": "C87", "title": "Gradient and Hessian conversion on the SPD manifold", "statement": "The converted gradient is a tangent vector that represents the derivative under the chosen metric for every Euclidean gradient the user supplies; the converted Hessian is the covariant derivative of the gradient field and is self-adjoint.", "quantifier": "all points, Euclidean gradients, Euclidean Hessians and directions", "why_tests_cant": "identities over continuous inputs of any size", "anchors": ["Manifolds/SPDManifold.cpp: EucGradToGradAF, EucHvToHvAF, EucGradToGradEuc, EucHvToHvEuc"]}
{"id": "C88", "title": "Intrinsic coordinates of SPD tangent vectors are isometric and invertible", "statement": "ObtainIntr and ObtainExtr are inverse to each other and the dot product of coordinates equals Metric, under both metrics.", "quantifier": "all sizes, points, tangent vectors and coordinate vectors", "why_tests_cant": "index arithmetic of unbounded size", "anchors": ["Manifolds/SPDManifold.cpp: ObtainIntrAF, ObtainExtrAF, ObtainIntrEuc, ObtainExtrEuc"]}
{"id": "C89", "title": "The second-order SPD retraction never leaves the manifold", "statement": "For every symmetric direction, however long, the retraction returns a symmetric positive definite matrix, returns x for the zero direction, agrees with the geodesic to second order, and DiffRetraction is its exact derivative.", "quantifier": "all points, directions and step lengths", "why_tests_cant": "positivity for every direction cannot be sampled", "anchors": ["Manifolds/SPDManifold.cpp: SecOrdRetraction 237-261, DiffSecOrdRetraction 263-318"]}
{"id": "C90", "title": "The SPD exponential retraction is the geodesic", "statement": "It returns a symmetric positive definite matrix for every direction, x for the zero direction, does not depend on which eigenvectors the eigenvalue routine picks, and following a direction for s and then t is following it for s + t.", "quantifier": "all points, directions, times and eigenvalue routines", "why_tests_cant": "holds for every choice LAPACK may make", "anchors": ["Manifolds/SPDManifold.cpp: ExpRetraction 194-229", "Manifolds/Element.cpp: ExpSym 965-1007"]}
{"id": "C91", "title": "SPD vector transport by parallelization is an invertible isometry", "statement": "It preserves Metric, its reverse undoes it, it is the identity from a point to itself, and the extrinsic and intrinsic versions agree.", "quantifier": "all pairs of points and tangent vectors", "why_tests_cant": "quantifies over all pairs of points", "anchors": ["Manifolds/SPDManifold.cpp: VectorTransportParallelization 511-520"]}
{"id": "C92", "title": "Dimensions of a product of manifolds", "statement": "The extrinsic and intrinsic dimensions of a product are the sums of those of its components, counted with multiplicity, and the number of components is the sum of the powers.", "quantifier": "all lists of types and powers", "why_tests_cant": "unbounded numbers of types and powers", "anchors": ["Manifolds/MultiManifolds.cpp: constructor 6-57"]}
{"id": "C93", "title": "A product inherits symmetry and isometry from its components", "statement": "If every component's metric is symmetric so is the product's, and if every component's vector transport is isometric so is the product's.", "quantifier": "all component lists, settings, points and vectors", "why_tests_cant": "quantifies over arbitrary component manifolds", "anchors": ["Manifolds/MultiManifolds.cpp: Metric, VectorTransport"]}
{"id": "C94", "title": "The numerical Hessian is a difference quotient of the gradient along the direction", "statement": "With no Hessian supplied, HessianEta's Euclidean Hessian action is the difference quotient of the Euclidean gradient along the direction with step 1e-5 / |eta|, so that every entry is the directional derivative of that entry of the gradient at a point of the segment; this also holds with numerical derivatives switched on and for the zero direction.", "quantifier": "all problems, points, directions and dimensions", "why_tests_cant": "quantifies over all gradients and points", "anchors": ["Problems/Problem.cpp: EucHessianEta 138-161", "Problems/Problem.cpp: RieGrad 84-95", "Problems/Problem.cpp: RieHessianEta 97-105"]}
{"id": "C95", "title": "Derivatives in coordinates represent the derivatives on the tangent space", "statement": "When the manifold works in coordinates, Grad returns the coordinates of the Riemannian gradient, which represent the derivative of the objective in the coordinate inner product, and HessianEta is self-adjoint in coordinates when the Riemannian Hessian is.", "quantifier": "all manifolds with isometric coordinates, problems, points and vectors", "why_tests_cant": "quantifies over manifolds and problems", "anchors": ["Problems/Problem.cpp: Grad 61-70", "Problems/Problem.cpp: HessianEta 72-82"]}
{"id": "C96", "title": "The derivatives of the supplied smooth objectives are exact", "statement": "For the supplied real smooth problems (quadratic, Brockett, Rayleigh quotient, sum of Brockett functions on a product, weighted low-rank approximation, Lyapunov, matrix completion, minimum-norm point of a convex hull, Rayleigh quotient of another problem's Hessian), f is the documented function, and after f has been called at x, EucGrad is its Euclidean gradient and EucHessianEta the derivative of EucGrad, for all data satisfying the documented symmetry.", "quantifier": "all dimensions, data, points and directions, over every real closed field", "why_tests_cant": "quantifies over all data and points; tests compare with finite differences at a few points", "anchors": ["Problems/EucQuadratic.cpp", "Problems/StieBrockett.cpp", "Problems/GrassRQ.cpp", "Problems/ProdStieSumBrockett.cpp", "Problems/FRankEWeightApprox.cpp", "Problems/SFRQLyapunov.cpp", "Problems/FRankQ2FMatCompletion.cpp", "Problems/SphereConvexHull.cpp", "Problems/SphereTxRQ.cpp"]}
{"id": "C97", "title": "The composite objectives split into a smooth part with the reported Lipschitz constant", "statement": "For sparse low-rank approximation and sparse PCA, f is a smooth function plus lambda times the 1-norm; EucGrad and EucHessianEta are the exact derivatives of the smooth part and the step constant L bounds its deviation from its linearization at every point and for every step.", "quantifier": "all dimensions, data, points and steps", "why_tests_cant": "a universally quantified inequality", "anchors": ["Problems/FRankESparseApprox.cpp: f, EucGrad, EucHessianEta", "Problems/StieSPCA.cpp: constructor, f, EucGrad, EucHessianEta"]}
{"id": "C98", "title": "Subgradient and Hessian of the sparsest vector problem", "statement": "f is the 1-norm of Q x; EucGrad is a subgradient at every x and the gradient wherever no entry of Q x vanishes, and EucHessianEta is the derivative of EucGrad there.", "quantifier": "all Q, x and directions", "why_tests_cant": "quantifies over all points", "anchors": ["Problems/SphereSparsestVector.cpp: f, EucGrad, EucHessianEta"]}
{"id": "C99", "title": "ProxW is the proximal mapping", "statement": "ProxW returns the unique minimiser of lambda |u|_1 plus half the weighted squared distance to x, is nonexpansive entrywise, and depends on nothing but x, the weights and lambda.", "quantifier": "all vectors, positive weights and lambda >= 0", "why_tests_cant": "quantifies over all competitors u", "anchors": ["Problems/StieSPCA.cpp: ProxW", "Problems/FRankESparseApprox.cpp: ProxW"]}
{"id": "C100", "title": "CalJW is the derivative of ProxW", "statement": "Where no entry is at a kink, ProxW at x + s eta equals ProxW at x plus s times CalJW of eta, for all small s.", "quantifier": "all vectors, directions, positive weights and lambda >= 0", "why_tests_cant": "quantifies over all points away from the kinks", "anchors": ["Problems/StieSPCA.cpp: CalJW", "Problems/FRankESparseApprox.cpp: CalJW"]}
{"id": "C101", "title": "The weights of sparse PCA are usable by ProxW", "statement": "PreConditioner of sparse PCA returns as many weights as asked for, none below 0.1 in the two computed modes, in column-major order; with them ProxW is the unique minimiser in each of the three supported modes.", "quantifier": "all data, dimensions and arithmetics", "why_tests_cant": "quantifies over all data including overflowing and NaN ones", "anchors": ["Problems/StieSPCA.cpp: PreConditioner, ProxW"]}
{"id": "C102", "title": "Tangent vectors of the fixed-rank manifold have one set of fields, and the metric is the Euclidean one", "statement": "At a point U D V^T of the fixed-rank manifold, a matrix belongs to the tangent space exactly when it has fields dU, dD, dV in the documented normalization, these are unique, Metric of two tangent vectors equals the Frobenius inner product of their matrices and is positive on nonzero vectors, and the intrinsic dimension is the extrinsic one minus that of the normal space.", "quantifier": "all sizes, ranks, points and tangent vectors", "why_tests_cant": "quantifies over all matrices", "anchors": ["Manifolds/FixedRankE.cpp: ExtrProjection", "Manifolds/FixedRankE.cpp: Metric", "Manifolds/FixedRankE.cpp: constructor"]}
{"id": "C103", "title": "Projection and Riemannian gradient on the fixed-rank manifold", "statement": "Projection returns the nearest tangent vector, leaves tangent vectors unchanged, and EucGradToGrad returns the one tangent vector whose metric product with every tangent vector is the Euclidean derivative.", "quantifier": "all points, matrices and tangent vectors", "why_tests_cant": "quantifies over all competitors", "anchors": ["Manifolds/FixedRankE.cpp: ExtrProjection", "Manifolds/FixedRankE.cpp: EucGradToGrad"]}
{"id": "C104", "title": "Riemannian Hessian on the fixed-rank manifold", "statement": "EucHvToHv returns a tangent vector, is symmetric when the Euclidean Hessian is, and equals the projection of the derivative of the Riemannian gradient along every curve on the manifold with that velocity.", "quantifier": "all points, directions, Euclidean gradients and Hessians, and all differentiable curves", "why_tests_cant": "quantifies over all curves", "anchors": ["Manifolds/FixedRankE.cpp: EucHvToHv"]}
{"id": "C105", "title": "The retraction of the fixed-rank manifold", "statement": "Retraction returns a point of the manifold with consistent factors, is the identity at zero and has the tangent vector as its derivative.", "quantifier": "all points, tangent vectors and step lengths", "why_tests_cant": "quantifies over all vectors, including those that make the core matrix singular", "anchors": ["Manifolds/FixedRankE.cpp: Retraction"]}
{"id": "C106", "title": "The differentiated retraction of the fixed-rank manifold", "statement": "DiffRetraction along a multiple of the step is the derivative of the retraction there and is tangent at the new point.", "quantifier": "all points, steps and multiples", "why_tests_cant": "quantifies over all steps, including those that leave a factor unchanged, and all multiples", "anchors": ["Manifolds/FixedRankE.cpp: DiffRetraction"]}
{"id": "C107", "title": "Linear combinations of tangent vectors carry their fields along, whichever argument receives the result", "statement": "ScalarTimesVector, ScalarVectorAddVector and VectorLinearCombination write the combination and matching fields to the result and change no other vector, for every aliasing of the arguments.", "quantifier": "all scalars, vectors with or without stored fields and all aliasings", "why_tests_cant": "quantifies over all aliasings", "anchors": ["Manifolds/FixedRankE.cpp: ScalarTimesVector", "Manifolds/FixedRankE.cpp: ScalarVectorAddVector", "Manifolds/FixedRankE.cpp: VectorLinearCombination"]}
{"id": "C108", "title": "Normal coordinates of the fixed-rank manifold", "statement": "ObtainNorVerIntr and ObtainNorVerExtr are inverse to each other, keep inner products, and range over exactly the normal space; the Householder vectors that Retraction stores at the new point serve for it.", "quantifier": "all points, normal vectors and correct Householder factorizations", "why_tests_cant": "quantifies over all vectors", "anchors": ["Manifolds/FixedRankE.cpp: ObtainNorVerIntr", "Manifolds/FixedRankE.cpp: ObtainNorVerExtr", "Manifolds/FixedRankE.cpp: Retraction"]}
{"id": "C109", "title": "LRTRSR1's memory holds the documented pairs and their inner products", "statement": "After any sequence of iterations of LRTRSR1 the memory holds the most recent LengthSY stored pairs (with LMrestart: those since it was last full), oldest first, each transported by every accepted step since, together with exactly their inner products <s,s>, <s,y> and the documented scaling gamma; also on a solver that has run before.", "quantifier": "all histories of accepted and rejected iterations, memory lengths, restart settings and transports", "why_tests_cant": "quantifies over all histories, wrap-arounds and transports", "anchors": ["Solvers/LRTRSR1.cpp: UpdateDataLRTRSR1", "Solvers/LRTRSR1.cpp: Acceptence", "Solvers/LRTRSR1.cpp: tCG_TR", "Solvers/LRTRSR1.cpp: Run"]}
{"id": "C110", "title": "LRTRSR1's quasi-Newton operator is symmetric, satisfies the newest secant equation and is the SR1 recursion", "statement": "The product of LRTRSR1's Hessian approximation with a vector, computed from the compact representation, is a symmetric operator, maps the newest stored step to its gradient difference and equals the recursive symmetric rank-one update of gamma I over the kept pairs.", "quantifier": "all histories with isometric transport, all vectors", "why_tests_cant": "quantifies over all histories and vectors", "anchors": ["Solvers/LRTRSR1.cpp: HvLRTRSR1", "Solvers/LRTRSR1.cpp: UpdateDataLRTRSR1"]}
{"id": "C111", "title": "LRTRSR1's subproblem solver returns the global minimizer when it lies in the region", "statement": "A step reported with status TRSM_MIN is the global minimizer of the quadratic model and lies in the trust region, and if the global minimizer lies in the region it is the one returned.", "quantifier": "all gradients, pairs, scalings and radii", "why_tests_cant": "quantifies over all models and competitors", "anchors": ["Solvers/LRTRSR1.cpp: tCG_TR", "Solvers/LRTRSR1.cpp: ComputeSBySMW"]}
{"id": "C112", "title": "LRTRSR1's boundary steps are the constrained minimizers", "statement": "A step reported with status TRSM_EXCREGION lies in the trust region and no step of the region gives a lower model value.", "quantifier": "all gradients, pairs, scalings and radii", "why_tests_cant": "quantifies over all models and competitors", "anchors": ["Solvers/LRTRSR1.cpp: tCG_TR", "Solvers/LRTRSR1.cpp: LocalNewton", "Solvers/LRTRSR1.cpp: PhiBar_fg"]}
{"id": "C113", "title": "LRTRSR1's negative-curvature steps are the constrained minimizers", "statement": "In the hard case (status TRSM_NEGCURVTURE) the step lies in the trust region and no step of the region gives a lower model value, and no memory outside its arrays is touched.", "quantifier": "all gradients, pairs, scalings and radii", "why_tests_cant": "quantifies over all models and competitors", "anchors": ["Solvers/LRTRSR1.cpp: tCG_TR"]}
{"id": "C114", "title": "The secular equation of LRTRSR1 is evaluated correctly and Newton's method approaches its root monotonically", "statement": "Right of the poles the value and gradient used are those of 1/|p(x)| - 1/Delta, the tangent lies above the function everywhere, and Newton's iterates increase, never pass the root, and stop only at the tolerance or the iteration limit.", "quantifier": "all eigenvalues, gradient components, radii, starting points and iteration counts", "why_tests_cant": "quantifies over all iterates and real arguments", "anchors": ["Solvers/LRTRSR1.cpp: PhiBar_fg", "Solvers/LRTRSR1.cpp: LocalNewton"]}
{"id": "C115", "title": "On the unit sphere of a tangent space, points stay on the sphere and steps follow the exponential map", "statement": "Random points and results of Retraction are unit vectors of the tangent space of the given manifold at the root; Retraction is the exponential map of the sphere, so it moves along the given direction; Projection gives the orthogonal projection onto the tangent space of the sphere.", "quantifier": "all manifolds (metric and projection at the root), points, ambient and tangent vectors of every length", "why_tests_cant": "quantifies over all points, directions and inner products", "anchors": ["Manifolds/SphereTx.cpp: RandominManifold", "Manifolds/SphereTx.cpp: Projection", "Manifolds/SphereTx.cpp: Retraction"]}
{"id": "C116", "title": "Vector transport on the unit sphere of a tangent space is parallel translation", "statement": "VectorTransport maps tangent vectors at x to tangent vectors at y, preserves inner products and is inverted by InverseVectorTransport for every pair of points; along the step itself DiffRetraction is the derivative of Retraction.", "quantifier": "all pairs of points and tangent vectors", "why_tests_cant": "quantifies over all points and vectors", "anchors": ["Manifolds/SphereTx.cpp: VectorTransport", "Manifolds/SphereTx.cpp: InverseVectorTransport", "Manifolds/SphereTx.cpp: DiffRetraction", "Manifolds/SphereTx.cpp: Beta"]}
{"id": "C117", "title": "MinMaxEigValHess reports the extreme eigenvalues of the Hessian", "statement": "The gradient and the Hessian of the Rayleigh quotient problem are the exact first and second derivatives along great circles, and if the two internal runs end at points where the gradient vanishes and the Hessian is positive semidefinite, the two reported numbers are the smallest and the largest eigenvalue of the user's Hessian, and its quadratic form lies between them on every unit tangent vector.", "quantifier": "all manifolds, self-adjoint Hessians, points and tangent vectors", "why_tests_cant": "quantifies over all operators and all competing unit vectors", "anchors": ["Problems/SphereTxRQ.cpp: f", "Problems/SphereTxRQ.cpp: EucGrad", "Problems/SphereTxRQ.cpp: EucHessianEta", "Problems/SphereTxRQ.cpp: MinMaxEigValHessian", "Manifolds/SphereTx.cpp: EucGradToGrad", "Manifolds/SphereTx.cpp: EucHvToHv", "Problems/Problem.cpp: MinMaxEigValHess"]}
{"id": "C118", "title": "The proximal mapping on a tangent space solves its minimisation problem", "statement": "TangentSpaceProximalMap returns a tangent vector at x. If the mapping is not broken off, the vector is the projection of the minimiser e of <g, v> + |v|_W^2 / 2 + h(x + v) among the vectors with the normal part of e, the returned multiplier certifies it, and the squared normal part of e is at most SMtol unless the limit of 100 iterations was reached; with a normal part of zero it is the only minimiser over the tangent space and a direction of descent, <g, s> + h(x + s) <= h(x) - |s|_W^2. In every case the step returned belongs to the multiplier returned.", "quantifier": "every point, gradient, positive weights whose number divides the number of entries, convex or nonconvex h with its proximal mapping, orthonormal coordinates of the normal space, start multiplier, tolerance and regularisation; exact arithmetic", "why_tests_cant": "the minimality is over all vectors of a space and must hold for every point, weight vector and h; a test compares with a few other vectors", "anchors": ["Manifolds/Manifold.cpp: Manifold::TangentSpaceProximalMap", "Manifolds/Manifold.cpp: Manifold::ComputeBLambda", "Manifolds/Manifold.cpp: Manifold::EW", "Problems/StieSPCA.cpp: ProxW, CalJW", "Solvers/ManPG.cpp: ManPG::Run"]}
{"id": "C119", "title": "The semismooth Newton iteration of the proximal mapping is bounded and makes progress", "statement": "TangentSpaceProximalMap performs at most 100 iterations and at most 30 conjugate gradient steps in each; it answers whenever there is at least one weight; it stops before the limit only with the residual within the tolerance or because a line search failed; the residual at the returned multiplier is never above that at the multiplier passed in; and a trial that meets the decrease condition is accepted.", "quantifier": "every manifold, problem, point, weight vector, start multiplier, tolerance and regularisation; every arithmetic", "why_tests_cant": "the number of iterations depends on all the data, and the failing line searches need a particular geometry", "anchors": ["Manifolds/Manifold.cpp: Manifold::TangentSpaceProximalMap"]}
{"id": "C120", "title": "The Newton system of the proximal mapping is solved to its tolerance", "statement": "The matrix of the Newton system of TangentSpaceProximalMap is symmetric and positive semidefinite for a diagonal generalised Jacobian, so that with the regularisation mu > 0 conjugate gradients never divide by zero; they return a direction with residual at most tau * min(1, lambda |F| |d|) unless they stop at a limit below the dimension of the normal space, solve the system after as many steps as that dimension, and never raise the energy of the start.", "quantifier": "every point, weights, nonnegative diagonal generalised Jacobian, right-hand side, start vector, mu > 0, tolerances and limit; exact arithmetic", "why_tests_cant": "finite termination and the tolerance must hold for every matrix, right-hand side and start vector", "anchors": ["Manifolds/Manifold.cpp: Manifold::myCG", "Manifolds/Manifold.cpp: Manifold::GLdW"]}
{"id": "C121", "title": "Fixed-rank positive semidefinite matrices: metric and projection", "statement": "On the manifold of symmetric positive semidefinite matrices of rank p, represented by n x p matrices x of full rank, Metric returns the inner product of the chosen metric as documented; for the Euclidean metric it equals the Frobenius inner product of the changes of x x^T; it is symmetric, and positive definite on horizontal vectors. ExtrProjection splits every matrix into its horizontal part and a vertical vector (one that does not change x x^T), the split is unique, and inner products with horizontal vectors do not change.", "quantifier": "all n, p, points of full rank, vectors and the three metrics", "why_tests_cant": "holds for every point and vector of every size; a test sees a few random matrices", "anchors": ["Manifolds/SymFixedRankQ.cpp: Metric, ExtrProjection, ExtrProjectionQEUC, ExtrProjectionEUCorHGZ"]}
{"id": "C122", "title": "Fixed-rank positive semidefinite matrices: Riemannian gradient", "statement": "EucGradToGrad returns the only horizontal vector whose inner products with horizontal vectors are the directional derivatives of the function.", "quantifier": "all n, p, points of full rank, Euclidean gradients of functions of x x^T (any gradient for the quotient Euclidean metric), the three metrics", "why_tests_cant": "a finite-difference test samples one direction at one point", "anchors": ["Manifolds/SymFixedRankQ.cpp: EucGradToGrad, EucGradToGradEUC, EucGradToGradHGZ, EucGradToGradQEUC"]}
{"id": "C123", "title": "Fixed-rank positive semidefinite matrices: Riemannian Hessian", "statement": "EucHvToHv returns the action of the Riemannian Hessian: for the Euclidean metric the second derivative along curves whose acceleration is normal to the manifold, for the metric HGZ the second derivative with the correction by the derivatives of the metric (Koszul), for the quotient Euclidean metric the second derivative. The result is horizontal and the operator is self-adjoint.", "quantifier": "all n, p, points of full rank, functions (through their first and second derivatives) and directions, the three metrics", "why_tests_cant": "self-adjointness and the second-order formula concern all pairs of directions", "anchors": ["Manifolds/SymFixedRankQ.cpp: EucHvToHv, EucHvToHvEUC, EucHvToHvHGZ, EucHvToHvQEUC"]}
{"id": "C124", "title": "Fixed-rank positive semidefinite matrices: intrinsic coordinates", "statement": "ObtainIntr returns np - p(p-1)/2 coordinates of a horizontal vector, inner products of coordinates are those of the metric, ObtainExtr inverts ObtainIntr and every list of coordinates is reached, in whatever order the two functions are called at a point.", "quantifier": "all n, p, points of full rank, horizontal vectors, coordinate lists and orders of calls, the three metrics", "why_tests_cant": "a round trip of random vectors does not show that the map is an isometry onto, nor exercises every order of calls", "anchors": ["Manifolds/SymFixedRankQ.cpp: ObtainIntr, ObtainExtr, ObtainIntrEUC, ObtainExtrEUC, ObtainIntrHGZ, ObtainExtrHGZ, ObtainIntrQEUC, ObtainExtrQEUC"]}
{"id": "C125", "title": "Fixed-rank positive semidefinite matrices: retraction", "statement": "Retraction returns a point of the manifold for every tangent vector; the point represents the positive semidefinite matrix nearest to x x^T plus the change given by the vector, it is the representative nearest to x, the zero vector returns x, and the curve of a tangent vector agrees with it to first order.", "quantifier": "all n, p, points of full rank and tangent vectors", "why_tests_cant": "optimality ranges over all positive semidefinite matrices and all rotations; failures occur on a set of vectors that random tests miss", "anchors": ["Manifolds/SymFixedRankQ.cpp: Retraction"]}
{"id": "C126", "title": "Fixed-rank positive semidefinite matrices: vector transport and differentiated retraction", "statement": "Transport by parallelization keeps inner products and gives tangent vectors; transport by projection gives the coordinates of the projected vector; DiffRetraction returns the derivative of the retraction.", "quantifier": "all n, p, pairs of points, tangent vectors, the three metrics", "why_tests_cant": "an isometry and a derivative must hold for every pair of vectors", "anchors": ["Manifolds/SymFixedRankQ.cpp: VectorTransport, VectorTransportProj, DiffRetraction"]}
{"id": "C127", "title": "Fixed-rank positive semidefinite matrices: reported metric", "statement": "CheckParams prints the name of the metric in use, and the numbered parameter sets offer every combination of a metric and a vector transport exactly once.", "quantifier": "the three metrics", "why_tests_cant": "tests do not read the printed parameters", "anchors": ["Manifolds/SymFixedRankQ.cpp: CheckParams, SetParams", "Manifolds/SymFixedRankQ.h: SFRankQMetric"]}
{"id": "C128", "title": "Fixed-rank matrices in two factors: metric and projection", "statement": "On the manifold of m x n matrices of rank r, represented by a pair of factors G and H of full rank, Metric returns the Frobenius inner product of the changes of G H^T; it vanishes exactly on the directions along which G H^T does not change, and is positive definite on horizontal vectors. ExtrProjection splits every pair into its horizontal part and a direction along which G H^T does not change, and the split is unique.", "quantifier": "all m, n, r, points of full rank and vectors", "why_tests_cant": "holds for every point and vector of every size; a test sees a few random matrices", "anchors": ["Manifolds/FixedRankQ2F.cpp: Metric, ExtrProjection, GenerateFieldsX"]}
{"id": "C129", "title": "Fixed-rank matrices in two factors: Riemannian gradient", "statement": "EucGradToGrad returns the only horizontal vector whose inner products with horizontal vectors are the directional derivatives of the function; its change of G H^T is the tangential part of the gradient of the function of G H^T.", "quantifier": "all m, n, r, points of full rank, Euclidean gradients of functions of G H^T", "why_tests_cant": "a finite-difference test samples one direction at one point", "anchors": ["Manifolds/FixedRankQ2F.cpp: EucGradToGrad"]}
{"id": "C130", "title": "Fixed-rank matrices in two factors: Riemannian Hessian", "statement": "EucHvToHv returns the action of the Riemannian Hessian: a horizontal vector whose inner product with any direction is the second derivative of the function along curves of rank-r matrices whose acceleration is normal to the manifold; the operator is self-adjoint.", "quantifier": "all m, n, r, points of full rank, functions (through their first and second derivatives) and directions", "why_tests_cant": "self-adjointness and the second-order formula concern all pairs of directions", "anchors": ["Manifolds/FixedRankQ2F.cpp: EucHvToHv"]}
{"id": "C131", "title": "Fixed-rank matrices in two factors: intrinsic coordinates", "statement": "ObtainIntr returns (m + n - r) r coordinates, inner products of coordinates are those of the metric, ObtainExtr inverts ObtainIntr on horizontal vectors and every list of coordinates is reached; for other vectors the round trip is the projection.", "quantifier": "all m, n, r, points of full rank, vectors and coordinate lists", "why_tests_cant": "a round trip of random vectors does not show that the map is an isometry onto", "anchors": ["Manifolds/FixedRankQ2F.cpp: ObtainIntr, ObtainExtr"]}
{"id": "C132", "title": "Fixed-rank matrices in two factors: retraction by addition", "statement": "Retraction returns a point of the manifold for every tangent vector; the zero vector returns x; the represented matrix follows the change given by the vector to second order; DiffRetraction returns the derivative.", "quantifier": "all m, n, r, points of full rank and tangent vectors", "why_tests_cant": "failures occur on a set of vectors that random tests miss; the order of agreement is a limit", "anchors": ["Manifolds/FixedRankQ2F.cpp: Retraction, DiffRetraction"]}
{"id": "C133", "title": "Fixed-rank matrices in two factors: retraction by projection", "statement": "ProjRetraction returns a point that represents the rank-r matrix nearest to G H^T plus the change given by the tangent vector.", "quantifier": "all m, n, r, points of full rank and tangent vectors", "why_tests_cant": "optimality ranges over all matrices of rank r", "anchors": ["Manifolds/FixedRankQ2F.cpp: ProjRetraction"]}
{"id": "C134", "title": "Fixed-rank matrices in two factors: vector transport", "statement": "VectorTransport gives tangent vectors and keeps inner products, in intrinsic and extrinsic representation alike, and InverseVectorTransport undoes it.", "quantifier": "all m, n, r, pairs of points, tangent vectors, both representations", "why_tests_cant": "an isometry must hold for every pair of vectors; the library's own checks use the intrinsic representation", "anchors": ["Manifolds/FixedRankQ2F.cpp: VectorTransport, InverseVectorTransport"]}
{"id": "C135", "title": "Karcher mean: value", "statement": "For positive definite samples given by their lower triangular factors, f returns half the mean of the squared affine-invariant distances between x and the samples; it is never negative, and zero exactly when every sample equals x.", "quantifier": "all sizes, numbers of samples, samples and points, whichever eigenvectors LAPACK returns", "why_tests_cant": "a test compares a few values; zero exactly at the mean of equal samples is a claim about all points", "anchors": ["Problems/SPDKarcherMean.cpp: f", "Manifolds/Element.cpp: LogSym, TriangleLinSol, CholDecom"]}
{"id": "C136", "title": "Karcher mean: Euclidean gradient", "statement": "EucGrad returns the gradient of f, which is symmetric: f changes by its inner product with the perturbation up to a multiple of the squared perturbation, for every perturbation, symmetric or not.", "quantifier": "all sizes, samples, points and perturbations", "why_tests_cant": "a finite-difference test samples one direction at one point and cannot bound the remainder", "anchors": ["Problems/SPDKarcherMean.cpp: EucGrad, f"]}
{"id": "C137", "title": "Karcher mean: Euclidean Hessian", "statement": "EucHessianEta returns the derivative of EucGrad along every symmetric direction, also where eigenvalues coincide; it is self-adjoint and maps symmetric matrices to symmetric matrices.", "quantifier": "all sizes, samples, points and directions, multiple eigenvalues included", "why_tests_cant": "equal eigenvalues take a separate branch that random tests never reach", "anchors": ["Problems/SPDKarcherMean.cpp: EucHessianEta"]}
{"id": "C138", "title": "Karcher mean: strong convexity", "statement": "With the affine-invariant metric, the Riemannian Hessian that the manifold computes from EucGrad and EucHessianEta is at least the identity at every point: its inner product with the tangent vector is at least the squared length of that vector.", "quantifier": "all sizes, samples, points and tangent vectors", "why_tests_cant": "a lower bound on an operator at every point; tests look at a few vectors", "anchors": ["Problems/SPDKarcherMean.cpp: EucGrad, EucHessianEta", "Manifolds/SPDManifold.cpp: EucHvToHvAF, Metric"]}
{"id": "C139", "title": "Complex Stiefel: projection and gradients", "statement": "Projection of an ambient matrix onto the tangent space at a matrix with orthonormal complex columns is the orthogonal projection: the result is tangent, tangent vectors are unchanged, the removed part is normal, no tangent vector is nearer, and vectors do not get longer. Under the Euclidean and the canonical metric the converted gradient is tangent and its inner product with every tangent vector is the directional derivative.", "quantifier": "all n, p, points, matrices and tangent vectors", "why_tests_cant": "a test checks a few random matrices; nearest means against every tangent vector", "anchors": ["Manifolds/CStiefel.cpp: ExtrProjection, EucGradToGrad, Metric, VectorTransport"]}
{"id": "C140", "title": "Complex Stiefel: Hessian", "statement": "EucHvToHv with the Euclidean metric returns the tangential part of the derivative of the gradient field, and is self-adjoint whenever the Euclidean Hessian is.", "quantifier": "all n, p, points, directions, Euclidean gradients and their derivatives", "why_tests_cant": "a derivative identity and a symmetry for every pair of directions", "anchors": ["Manifolds/CStiefel.cpp: EucHvToHv"]}
{"id": "C141", "title": "Complex Stiefel: retractions", "statement": "Retraction by QR returns the only Q factor of x + eta whose R factor has a positive diagonal; Retraction by polar decomposition returns the only unitary polar factor, the nearest point of the manifold. Both return points of the manifold, return x for the zero vector and agree with x + t eta to second order.", "quantifier": "all n, p, points, tangent vectors and step sizes, whatever decomposition LAPACK returns", "why_tests_cant": "uniqueness, nearest and the order of agreement are claims about all competitors and all step sizes", "anchors": ["Manifolds/CStiefel.cpp: qfRetraction, PolarRetraction"]}
{"id": "C142", "title": "Complex Stiefel: derivatives of the retractions", "statement": "DiffRetraction for QR returns, for every direction, the only tangent vector at the new point that solves the linearised factorisation; for the polar retraction it does so along multiples of eta.", "quantifier": "all n, p, points, tangent vectors and directions", "why_tests_cant": "a finite-difference test samples one direction; uniqueness cannot be tested", "anchors": ["Manifolds/CStiefel.cpp: DiffqfRetraction, DiffPolarRetraction"]}
{"id": "C143", "title": "Complex Stiefel: tangent coordinates and parallelization", "statement": "ObtainIntr and ObtainExtr are inverse isometries between the tangent space and real vectors of length 2np - p^2; transporting by keeping the coordinates maps tangent vectors to tangent vectors isometrically and is undone by transporting back.", "quantifier": "all n, p, points, Householder factorisations, tangent vectors and coordinate vectors", "why_tests_cant": "index arithmetic of interleaved real and imaginary parts must be right for every size", "anchors": ["Manifolds/CStiefel.cpp: ObtainIntrHHR, ObtainExtrHHR, VectorTransport"]}
{"id": "C144", "title": "Complex Stiefel: normal coordinates", "statement": "ObtainNorVerIntr and ObtainNorVerExtr are inverse isometries between the normal space and real vectors of length p^2.", "quantifier": "all n, p, points, normal vectors, coordinate vectors and contents of freshly allocated memory", "why_tests_cant": "the outcome depends on memory contents that a test does not control", "anchors": ["Manifolds/CStiefel.cpp: ObtainNorVerIntr, ObtainNorVerExtr"]}
{"id": "C145", "title": "Complex Stiefel: products fit their storage", "statement": "Every matrix product performed by the complex Stiefel manifold satisfies the assertions of the product routine and writes only into the storage of its result.", "quantifier": "all member functions, n and p", "why_tests_cant": "an overrun of a heap buffer need not show in a test", "anchors": ["Manifolds/CStiefel.cpp: InvPolarRetraction, EucHvToHv, Metric, ExtrProjection, EucGradToGrad, ObtainNorVerIntr, ObtainNorVerExtr, DiffqfRetraction, DiffPolarRetraction", "Manifolds/Element.cpp: AlphaABaddBetaThis, SYL"]}
{"id": "C146", "title": "Complex Brockett problem", "statement": "For Hermitian B and real D, f is the real part of trace(x^H B x D); EucGrad is its gradient and EucHessianEta the derivative of EucGrad, self-adjoint.", "quantifier": "all n, p, B, D, points and directions", "why_tests_cant": "an identity for all inputs; finite differences sample it", "anchors": ["Problems/CStieBrockett.cpp: f, EucGrad, EucHessianEta"]}
{"id": "C147", "title": "Complex fixed-rank matrices in two factors: metric and projection", "statement": "On the manifold of complex m x n matrices of rank r, represented by a pair of factors G and H of full rank, Metric returns the real part of the Frobenius inner product of the changes of G H^*; it vanishes exactly on the directions along which G H^* does not change, and is positive definite on horizontal vectors. ExtrProjection splits every pair into its horizontal part and a direction along which G H^* does not change, and the split is unique.", "quantifier": "all m, n, r, points of full rank and vectors, over the complex numbers", "why_tests_cant": "holds for every point and vector of every size; a test sees a few random matrices", "anchors": ["Manifolds/CFixedRankQ2F.cpp: Metric, ExtrProjection, GenerateFieldsX"]}
{"id": "C148", "title": "Complex fixed-rank matrices in two factors: Riemannian gradient", "statement": "EucGradToGrad returns the only horizontal vector whose inner products with horizontal vectors are the directional derivatives of the function; its change of G H^* is the tangential part of the gradient of the function of G H^*.", "quantifier": "all m, n, r, points of full rank, Euclidean gradients of functions of G H^*, over the complex numbers", "why_tests_cant": "a finite-difference test samples one direction at one point", "anchors": ["Manifolds/CFixedRankQ2F.cpp: EucGradToGrad"]}
{"id": "C149", "title": "Complex fixed-rank matrices in two factors: Riemannian Hessian", "statement": "EucHvToHv returns the action of the Riemannian Hessian: a horizontal vector whose inner product with any direction is the second derivative of the function along curves of rank-r matrices whose acceleration is normal to the manifold; the operator is self-adjoint.", "quantifier": "all m, n, r, points of full rank, functions (through their first and second derivatives) and directions, over the complex numbers", "why_tests_cant": "self-adjointness and the second-order formula concern all pairs of directions", "anchors": ["Manifolds/CFixedRankQ2F.cpp: EucHvToHv"]}
{"id": "C150", "title": "Complex fixed-rank matrices in two factors: intrinsic coordinates", "statement": "ObtainIntr returns 2 (m + n - r) r real coordinates, inner products of coordinates are those of the metric, ObtainExtr inverts ObtainIntr on horizontal vectors and every list of coordinates is reached; for other vectors the round trip is the projection.", "quantifier": "all m, n, r, points of full rank, vectors and coordinate lists, over the complex numbers", "why_tests_cant": "a round trip of random vectors does not show that the map is an isometry onto", "anchors": ["Manifolds/CFixedRankQ2F.cpp: ObtainIntr, ObtainExtr"]}
{"id": "C151", "title": "Complex fixed-rank matrices in two factors: retraction by addition", "statement": "Retraction returns a point of the manifold for every tangent vector; the zero vector returns x; the represented matrix follows the change given by the vector to second order; DiffRetraction returns the derivative.", "quantifier": "all m, n, r, points of full rank and tangent vectors, over the complex numbers", "why_tests_cant": "failures occur on a set of vectors that random tests miss; the order of agreement is a limit", "anchors": ["Manifolds/CFixedRankQ2F.cpp: Retraction, DiffRetraction"]}
{"id": "C152", "title": "Complex fixed-rank matrices in two factors: retraction by projection", "statement": "ProjRetraction returns a point that represents the rank-r matrix nearest to G H^* plus the change given by the tangent vector.", "quantifier": "all m, n, r, points of full rank and tangent vectors, over the complex numbers", "why_tests_cant": "optimality ranges over all matrices of rank r", "anchors": ["Manifolds/CFixedRankQ2F.cpp: ProjRetraction"]}
{"id": "C153", "title": "Complex fixed-rank matrices in two factors: vector transport", "statement": "VectorTransport gives tangent vectors and keeps inner products, in intrinsic and extrinsic representation alike, and InverseVectorTransport undoes it.", "quantifier": "all m, n, r, pairs of points, tangent vectors, both representations, over the complex numbers", "why_tests_cant": "an isometry must hold for every pair of vectors; the library's own checks use the intrinsic representation", "anchors": ["Manifolds/CFixedRankQ2F.cpp: VectorTransport, InverseVectorTransport"]}
{"id": "C154", "title": "Fixed-rank Hermitian positive semidefinite matrices: metric and projection", "statement": "On the manifold of Hermitian positive semidefinite matrices of rank p, represented by complex n x p matrices x of full rank, Metric returns the inner product of the chosen metric as documented; for the Euclidean metric it equals the real part of the Frobenius inner product of the changes of x x^*; it is symmetric, and positive definite on horizontal vectors. ExtrProjection splits every matrix into its horizontal part and a vertical vector (one that does not change x x^*), the split is unique, and inner products with horizontal vectors do not change.", "quantifier": "all n, p, points of full rank, vectors and both metrics, over the complex numbers", "why_tests_cant": "holds for every point and vector of every size; a test sees a few random matrices", "anchors": ["Manifolds/CSymFixedRankQ.cpp: Metric, ExtrProjection"]}
{"id": "C155", "title": "Fixed-rank Hermitian positive semidefinite matrices: Riemannian gradient", "statement": "EucGradToGrad returns the only horizontal vector whose inner products with horizontal vectors are the directional derivatives of the function.", "quantifier": "all n, p, points of full rank, Euclidean gradients of functions of x x^*, both metrics, over the complex numbers", "why_tests_cant": "a finite-difference test samples one direction at one point", "anchors": ["Manifolds/CSymFixedRankQ.cpp: EucGradToGrad, EucGradToGradEUC, EucGradToGradHGZ"]}
{"id": "C156", "title": "Fixed-rank Hermitian positive semidefinite matrices: Riemannian Hessian", "statement": "EucHvToHv returns the action of the Riemannian Hessian: for the Euclidean metric the second derivative along curves whose acceleration is normal to the manifold, for the metric HGZ the second derivative with the correction by the derivatives of the metric (Koszul). The result is horizontal and the operator is self-adjoint.", "quantifier": "all n, p, points of full rank, functions (through their first and second derivatives) and directions, both metrics, over the complex numbers", "why_tests_cant": "self-adjointness and the second-order formula concern all pairs of directions", "anchors": ["Manifolds/CSymFixedRankQ.cpp: EucHvToHv, EucHvToHvEUC, EucHvToHvHGZ"]}
{"id": "C157", "title": "Fixed-rank Hermitian positive semidefinite matrices: intrinsic coordinates", "statement": "ObtainIntr returns 2np - p^2 real coordinates of a horizontal vector, inner products of coordinates are those of the metric, ObtainExtr inverts ObtainIntr and every list of coordinates is reached.", "quantifier": "all n, p, points of full rank, horizontal vectors and coordinate lists, both metrics, over the complex numbers", "why_tests_cant": "a round trip of random vectors does not show that the map is an isometry onto", "anchors": ["Manifolds/CSymFixedRankQ.cpp: ObtainIntr, ObtainExtr, ObtainIntrEUC, ObtainExtrEUC, ObtainIntrHGZ, ObtainExtrHGZ"]}
{"id": "C158", "title": "Fixed-rank Hermitian positive semidefinite matrices: retraction", "statement": "Retraction returns a point of the manifold for every tangent vector; the point represents the positive semidefinite matrix nearest to x x^* plus the change given by the vector, it is the representative nearest to x, the zero vector returns x, and the curve of a tangent vector agrees with it to first order.", "quantifier": "all n, p, points of full rank and tangent vectors, over the complex numbers", "why_tests_cant": "optimality ranges over all positive semidefinite matrices and all unitary factors; failures occur on a set of vectors that random tests miss", "anchors": ["Manifolds/CSymFixedRankQ.cpp: Retraction"]}
{"id": "C159", "title": "Fixed-rank Hermitian positive semidefinite matrices: vector transport and differentiated retraction", "statement": "Transport by parallelization keeps inner products and gives tangent vectors; transport by projection gives the coordinates of the projected vector; DiffRetraction returns the derivative of the retraction.", "quantifier": "all n, p, pairs of points, tangent vectors, both metrics, over the complex numbers", "why_tests_cant": "an isometry and a derivative must hold for every pair of vectors", "anchors": ["Manifolds/CSymFixedRankQ.cpp: VectorTransport, VectorTransportProj, DiffRetraction"]}
{"id": "C160", "title": "Fixed-rank Hermitian positive semidefinite matrices: reported metric", "statement": "CheckParams prints the name of the metric in use, and the numbered parameter sets offer every combination of a metric and a vector transport exactly once.", "quantifier": "both metrics", "why_tests_cant": "tests do not read the printed parameters", "anchors": ["Manifolds/CSymFixedRankQ.cpp: CheckParams, SetParams", "Manifolds/CSymFixedRankQ.h: CSFRankQMetric"]}
{"id": "C161", "title": "Phase retrieval: cost", "statement": "f is the squared misfit of the predicted intensities (the diagonals of Z X Z^* for X = x x^*, Z being a mask followed by the normalised two-dimensional Fourier transform), divided by the squared norm of the data, plus kappa times the trace of X; it is nonnegative for kappa >= 0, and for kappa = 0 it is zero exactly when all intensities equal the data.", "quantifier": "all image sizes n1 and n2, numbers of masks and of columns, complex masks, real data b not all zero, weights kappa and points x", "why_tests_cant": "a test compares a few random images, of one size, with another implementation of the same loops", "anchors": ["Problems/CSFRQPhaseRetrieval.cpp: f", "Manifolds/Element.cpp: FFT2D"]}
{"id": "C162", "title": "Phase retrieval: gradient", "statement": "EucGrad is the gradient of f: along every line through x the cost is a polynomial of degree four whose slope at x is the inner product with EucGrad.", "quantifier": "all image sizes n1 and n2, numbers of masks and of columns, complex masks, real data b not all zero, weights kappa, points x and directions", "why_tests_cant": "finite differences at a few points have tolerances and do not cover every direction and weight", "anchors": ["Problems/CSFRQPhaseRetrieval.cpp: EucGrad"]}
{"id": "C163", "title": "Phase retrieval: Hessian", "statement": "EucHessianEta is the second derivative of f along every line, is the derivative of EucGrad, and is self-adjoint.", "quantifier": "all image sizes n1 and n2, numbers of masks and of columns, complex masks, real data b not all zero, weights kappa, points x and directions", "why_tests_cant": "finite differences at a few points have tolerances and do not cover every pair of directions", "anchors": ["Problems/CSFRQPhaseRetrieval.cpp: EucHessianEta", "Manifolds/Element.cpp: GetColDotProducts, GetDiagTimesM"]}
{"id": "C164", "title": "Phase retrieval: quotient", "statement": "f does not change when x is multiplied by a unitary matrix from the right, EucGrad and EucHessianEta are multiplied by the same matrix, and EucGrad is orthogonal to the directions in which x x^* does not change, so the problem is well defined on the quotient manifold.", "quantifier": "all image sizes n1 and n2, numbers of masks and of columns, complex masks, real data b not all zero, weights kappa, points x, directions and unitary matrices", "why_tests_cant": "ranges over a continuous group", "anchors": ["Problems/CSFRQPhaseRetrieval.cpp: f, EucGrad, EucHessianEta"]}
{"id": "C165", "title": "Two-dimensional Fourier transform and energy of the samples", "statement": "The backward transform of FFT2D is the adjoint of the forward transform and inverts it up to the factor n1 n2; with masks of modulus one the intensities predicted for each mask add up to the squared norm of x.", "quantifier": "all image sizes and images; all masks of modulus one", "why_tests_cant": "tests transform a few images of a few sizes", "anchors": ["Manifolds/Element.cpp: FFT2D", "Problems/CSFRQPhaseRetrieval.cpp: f"]}
{"id": "C166", "title": "Blind deconvolution: cost", "statement": "For d and mu other than zero f is the objective stated for the problem: the squared misfit between y and the diagonal of F B X (conj(F) H C)^* for X = h m^*, plus rho times the sum of the squared positive parts of L |b_i^* h|^2 |m|^2 / (8 d^2 mu^2) - 1.  It does not change when h is multiplied by a and m by 1/conj(a), so it is well defined on the quotient, and it is nonnegative for rho >= 0.", "quantifier": "all image sizes n1 and n2, complex matrices B and C, data y, real rho, d and mu, points h and m and nonzero complex a", "why_tests_cant": "a test compares a few random images, of one size, with another implementation of the same loops, and the invariance ranges over a continuous group", "anchors": ["Problems/CFRankQ2FBlindDecon2D.cpp: f", "Manifolds/Element.cpp: GetFFT2D"]}
{"id": "C167", "title": "Blind deconvolution: gradient", "statement": "EucGrad is the gradient of f with the penalty included: in every direction, f changes by t times the inner product with EucGrad up to a constant times t^2, also at the points where a positive part switches on or off.", "quantifier": "all image sizes n1 and n2, complex matrices B and C, data y, real rho, d and mu, points h and m and directions", "why_tests_cant": "finite differences at a few points have tolerances and miss the points where the penalty switches", "anchors": ["Problems/CFRankQ2FBlindDecon2D.cpp: EucGrad"]}
{"id": "C168", "title": "Blind deconvolution: Hessian of the data term", "statement": "For rho = 0 f is a polynomial of degree four along every line; its slope is EucGrad, its second derivative is EucHessianEta, and EucHessianEta is self-adjoint.", "quantifier": "all image sizes n1 and n2, complex matrices B and C, data y, real rho, d and mu, points h and m and directions, with rho = 0", "why_tests_cant": "finite differences at a few points have tolerances and do not cover every pair of directions", "anchors": ["Problems/CFRankQ2FBlindDecon2D.cpp: EucHessianEta"]}
{"id": "C169", "title": "Shortest vector of a convex hull: result is in the hull", "statement": "MinPNormConHull returns in outSoln a convex combination of the given vectors, whatever point of the sphere the inner solver ends at, and the returned number is its squared length in the given metric.", "quantifier": "all finite nonempty lists of vectors of any dimension, all metric operators, initial points and runs of the inner solver", "why_tests_cant": "ranges over all lists of vectors and all outcomes of an iterative solver started at a random point", "anchors": ["Others/MinPNormConHull.cpp: MinPNormConHull, MinPNormConHullRMethod", "Problems/SphereConvexHull.cpp"]}
{"id": "C170", "title": "Shortest vector of a convex hull: minimality", "statement": "The vector returned by MinPNormConHull is the shortest vector of the convex hull of the given vectors: no convex combination is shorter, and for a definite metric it is the only one of that length.", "quantifier": "all finite nonempty lists of vectors of any dimension, all metric operators, initial points and runs of the inner solver", "why_tests_cant": "minimality compares with infinitely many convex combinations; the inner problem is not convex", "anchors": ["Others/MinPNormConHull.cpp: MinPNormConHull, MinPNormConHullRMethod", "Problems/SphereConvexHull.cpp"]}
{"id": "C171", "title": "Uniform random numbers stay in [0, 1]", "statement": "genrandreal consumes exactly one number of the C library's generator and returns it divided by RAND_MAX, a number from 0 to 1 inclusive; after the same seed the same numbers follow.", "quantifier": "all sequences of integers from 0 to RAND_MAX that rand may return, all RAND_MAX >= 32767, all positions in the sequence", "why_tests_cant": "the extreme values 0 and RAND_MAX practically never occur in a test", "anchors": ["Others/randgen.cpp: genrandreal, genrandseed"]}
{"id": "C172", "title": "Normal random numbers are finite", "statement": "genrandnormal never takes the logarithm of zero: it skips draws equal to RAND_MAX, then returns the Box-Muller formula of the next two draws, up to 1e-20 times the largest modulus, and the modulus is at most sqrt(2 ln RAND_MAX); it fails to return only if every further draw is RAND_MAX.", "quantifier": "all sequences of integers from 0 to RAND_MAX that rand may return, all RAND_MAX >= 32767, all positions in the sequence", "why_tests_cant": "the critical draw has probability 1 / RAND_MAX", "anchors": ["Others/randgen.cpp: genrandnormal"]}
