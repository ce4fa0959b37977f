# Formal model of ROPTLIB in Rocq

Source: /repo (C++), read as text only.  Build: `cd rocq && coq_makefile -f _CoqProject -o Makefile && make -j4`.

## 1. Conventions

* One group of files per area: `XModel.v` (executable model, every definition cites file and lines),
  `XSpec.v` (small specification, independent of the model's helpers), `XProofs.v` (proofs),
  `XProps.v` (property theorems only; each closed by `exact lemma.` and followed by `Print Assumptions`,
  with non-vacuity `Example`s in `XExamples.v` or beside them in the proofs file).
* Solver code is modelled over an abstract arithmetic (`Arith.v`: a record of operations with *no laws*).
  Control-flow theorems therefore hold for every arithmetic, in particular IEEE double with NaN.
  Theorems needing real algebra are stated for the real-number instance.  Concrete floating-point
  witnesses use `Coq.Floats.SpecFloat` (pure Gallina, no primitive floats).
* Objective functions, gradients, retractions, LAPACK results, clocks and random numbers are parameters
  (arbitrary functions / oracle streams) bound inside `Section`s, so they become universally quantified
  premises of the theorems.
* Undefined behaviour (use of released memory, null dereference, index out of bounds, failed assertion)
  is a separate outcome of the model, never a silent default.
* Loops without static bound use explicit fuel; running out of fuel is a distinct result and the theorems
  exclude or characterise it.
* A property the code violates has a `..._refuted` theorem with a concrete witness, and, where possible, a
  `..._partial` theorem with the strongest true variant.

## 2. Trusted base

* The Coq 8.16.1 kernel (and `coqchk` as an independent re-check).
* Axioms: see section 6, which lists what `Print Assumptions` reports for each property theorem.
* The reading of the C++ sources: the model is tied to the code by the citations only.
* Not modelled anywhere: BLAS/LAPACK internals (taken as their mathematical specification), FFTW, MATLAB/Julia
  bindings, random number quality, timing, printing, `integer` overflow, out-of-memory.

## 3. Plan per property

Every property C01-C172 can be expressed; none is marked not applicable.  "witness" means that the
property is false of the code and a `_refuted` theorem exhibits a concrete case.

| id | model | proof method |
|----|-------|--------------|
| C01,C02,C03 | SmartSpaceModel: heap of counted blocks, objects with shape/pointer; each SmartSpace method as a transition with UB outcome | invariant (counter = number of owners) by induction over op lists; refinement to a map of private arrays; C03 witness through Reshape |
| C04 | same heap model extended by in-place methods | refinement for the methods going through write access; witnesses for Conj, HaddRankone |
| C05 | cache map attached to objects, decomposition = arbitrary function of the contents | invariant over op lists; witnesses for the methods that do not invalidate |
| C06 | FieldsModel: rose tree of fields | induction on the tree; witnesses |
| C07,C09,C73-C76 | MatOpsModel: column-major index functions and entry loops on lists | index arithmetic, induction |
| C08,C72 | ProductModel: component slice layout; storage identities | invariant over op lists, refinement; witnesses |
| C10 | HaarModel: per-level loops over lists | induction on the level |
| C11,C13,C14,C64,C65 | SparseModel: rows as association lists, C++ loops | induction on rows/triplets; witnesses |
| C12 | handle table | invariant over op lists; witness |
| C15-C20,C63 | SplineModel: arrays with exact buffer layout for the periodic versions | induction, field arithmetic; witnesses |
| C21-C24,C28,C34,C59 | SolverRunModel: Run loop over abstract arithmetic, oracle objectives and line searches | induction on iterations; witnesses |
| C23,C25-C27,C42 | LineSearchModel: five line searches with fuel | induction on fuel, measure; witnesses |
| C29-C33,C60-C62 | TrustRegionModel: trust-region loop, tCG over an abstract real inner-product space | invariants of CG (conjugacy, monotone length, residual test) |
| C35,C71 | ParamsModel: decision functions and parameter records of all classes | case analysis, induction on the map |
| C36,C37 | QuasiNewtonModel: circular buffer and two-loop recursion | refinement to list of last m pairs; induction on memory |
| C38,C39 | operators on an inner-product space | algebra, invariants over runs |
| C40 | persistent solver state over two runs | witness |
| C41,C46,C66,C67 | DirectionModel: RCG formulas, restart test, RNewton's inner CG | algebra, invariants |
| C43-C45,C68-C70 | NonsmoothModel: ManPG, AManPG, subgradient solvers with oracles | measure, invariants, witnesses |
| C47-C51,C84,C85 | TangentModel: store of named vectors with aliasing; locking-condition transport; sphere | case analysis, inner-product algebra, derivatives over Coq's reals |
| C52,C53,C58,C77-C83 | StiefelModel: matrices over any real closed field (mathcomp) | matrix algebra, packing bijection, uniqueness of linearised equations |
| C54,C86-C91 | SPDModel | matrix algebra with eigen/Cholesky oracles |
| C55,C92,C93 | MultiModel: list of components with groups | induction on components; witnesses |
| C56 | HessMemModel: storage identities of the Hessian approximation over a run | invariant over runs; witnesses |
| C57,C94,C95 | ProblemModel, NumGradMemModel: perturb/restore loop on lists | induction; witnesses |
| C96-C98 | ObjectiveModel: f, EucGrad, EucHessianEta of the problem classes | exact expansion f(x + t e) = f + t<g,e> + t^2 ... |
| C99-C101 | ProxModel | case analysis, convexity inequality |
| C102-C108 | FixedRankModel: x = U D V^T with fields | matrix algebra, curves; witnesses |
| C109,C110 | LSR1Model: memory with Gram tables | refinement to lists of transported pairs, SR1 recursion |
| C111-C114 | LSR1SubModel: eigen-decomposed subproblem, Newton on the secular equation | optimality conditions, convexity of the secular function; witnesses |
| C115-C117 | SphereTxModel: unit sphere in an abstract tangent space, Rayleigh quotient | inner-product algebra, derivatives |
| C118-C120 | SSNModel: Manifold's TangentSpaceProximalMap with its conjugate gradients, weights, line search | optimality conditions, CG invariants, measure; witnesses |
| C121-C127 | SymFRModel: SymFixedRankQ with its three metrics, projections, gradients, Hessians, coordinates, retraction, transports | matrix identities over a real closed field, spectral theorem (Decomp), von Neumann-type bounds; witnesses |
| C128-C134 | Q2FModel: FixedRankQ2F metric, projection, gradient, Hessian, coordinates, both retractions, transports | matrix identities, singular value decomposition (Decomp), Eckart-Young (Eckart); witnesses |
| C135-C138 | KMModel: SPDKarcherMean value, gradient, Hessian, with LogSym and the triangular solves | functions of symmetric matrices in two eigenbases (KMFun: Klein and Daleckii-Krein estimates), bounds of the logarithm (KMLn), norms (KMNorm); sums over the samples by induction |
| C139-C146 | CStieModel: CStiefel metric, projection, gradients, Hessian, both retractions and derivatives, coordinates, storage of its products; CStieBrockett | complex matrix identities over R[i] (CMx), uniqueness of QR and polar factors, second-order bounds; witnesses |
| C147-C153 | CQ2FModel: CFixedRankQ2F metric, projection, gradient, Hessian, real coordinates, both retractions, transports | complex matrix identities (CMx, CFr), complex spectral and singular value decompositions (CDecomp), complex Eckart-Young (CEckart); witnesses |
| C154-C160 | CSymFRModel: CSymFixedRankQ with its two metrics, projection, gradients, Hessians, real coordinates, retraction, transports | complex matrix identities (CMx, CFr), law of inertia for the retraction, complex decompositions (CDecomp); witnesses |
| C161-C165 | PhaseModel: CSFRQPhaseRetrieval value, gradient, Hessian; Element's FFT2D as documented | matrix of the masked transform, rowwise bilinear expansion, orthogonality of roots of unity |
| C166-C168 | BlindModel: CFRankQ2FBlindDecon2D value with penalty, gradient, Hessian, rank one | matrices of the two measurement maps, exact expansion of the data term, second order bound for squared positive parts |
| C169-C170 | HullModel: MinPNormConHull with RTRNewton as a function; SphereConvexHull and the sphere's conversions from ObjectiveModel and StiefelModel | second-order points satisfy the optimality conditions of the convex problem; witness for first-order points |
| C171-C172 | RandModel: randgen over an arbitrary sequence of the C library's draws, log of a nonpositive number and endless loop as outcomes | induction over the skipped draws; Machin-like bounds for pi; cosine is 1-Lipschitz |

## 4. Findings (places where the code does not satisfy the stated property)

Items with a property number have a `_refuted` theorem of that number in MANIFEST.json.  The others were
noticed while reading and are listed because they limit what the model claims.

**Storage and elements**

* C03: assignment between two objects that already share storage returns early and keeps the old shape.
* C04: `HaddRankone` and `Conj` write through the raw pointer, so every sharer changes.
* C05: `Reshape`, `HaddRankone`, `Conj` and `ScaledIdOPE` keep cached decompositions of the old contents.
* C06: between products of the same shape the target's components keep stale fields; fields of nested
  components are lost; grouping is kept when only lengths agree; `b = b.Field("x")` deletes its source.
* C07: `SubmatrixAssignment` on shared storage leaves the entries outside the block uninitialised.
* C08, C72: writing a component of a product without storage gives the component private storage; a component
  copied out and then written detaches; it dangles after its parent dies; writing a component while the
  parent's storage is shared changes the other owners.
* C75: `GetRealInComplex`/`GetImagInComplex` leave half the result unwritten and use the wrong layout.
* C76: `operator+=`/`-=` take the left operand by value.
* `GetTranspose` and `SubmatrixAssignment` ignore `size[2]`; `ScaledIdOPE` silently does nothing for complex
  n by n matrices; `AlphaABaddBetaThis` (Element.cpp 1709) tests `A` twice.

**Line searches and the run loop**

* C21, C61: with Min_Iteration > Max_Iteration the histories are written out of bounds.
* C24: the nonmonotone window is one short until it is full.
* C25: Wolfe loops forever on a NaN objective, Armijo from an infinite initial step, strong Wolfe when the
  step stays 0.
* C27: Wolfe reports success without decrease or curvature in two exits.
* C28: Armijo's MINSTEPSIZE and zoom's LSERROR report a step that did not produce the returned point.
* C42: the Barzilai-Borwein step is infinite on a linear objective; initial steps are not bounded by Maxstepsize.
* C59: Wolfe's skip path and failing strong Wolfe searches return a stale gradient.
* `pre_BBs` is never cleared between runs; `LSSM_INPUTFUN` with a null function is a null call.

**Trust region**

* C30: with Accuracy > 0 the third acceptance clause accepts increasing steps.
* C31, C32: a pass forced by Min_Inner_Iter after an exact solution divides 0 by 0.
* C33: the function history holds the value of the rejected candidate.
* The stopping test and the time limit are only re-evaluated on acceptance; RTRSR1 resets B after the residual
  was computed with the old B.

**Quasi-Newton and conjugate gradients**

* C39: SR1 fails the secant equation at the second iteration and for a zero residual.
* C40, C109, C110: a second `Run` of LRBFGS / LRTRSR1 keeps Currentlength and beginidx with fresh arrays.
* C56: rank-one updates write into the user's initial matrix.
* C41: a zero denominator gives an infinite direction whose NaN slope passes the restart test.
* C46: RNewton converging in its first inner pass returns the unscaled preconditioned gradient.
* C109: the Gram tables of LRTRSR1 assume isometric transports.
* C111: the rank test of ComputeSBySMW is scale dependent; small parts of the gradient are dropped so an
  "interior" step can leave the region.
* C112: Newton's iterates stay left of the root, so the boundary step is too long; a negative component along the
  lowest eigenvector starts Newton at the pole.
* C113: the hard case adds instead of subtracting a projection, uses a stale pStar, and writes out of bounds for
  two or more pairs.
* LRTRSR1: gamma = <y,y>/<s,y> may divide by zero or be negative; more pairs than dimensions read past the end of
  the eigenvalue array; k = 0 passes an illegal leading dimension to gemm; PhiBar is infinite when all components vanish.

**Nonsmooth solvers**

* C44, C70: NaN at the accelerated point / in the line search is accepted.
* C45: Eps can shrink forever; C68: ManPG accepts an increase when <grad, eta> > 0; C69: ndir1 is stale or
  uninitialised.
* SGIterGap = 0 divides by zero; SMtol and SMlambda persist across runs.

**Parameters**

* C35: LS_ratio, LS_alpha, Minstepsize of ManPG/AManPG are cast to integers.
* C71: HasHHR is lost when given with ParamSet; Sphere's ParamSet 5 installs Stiefel's Cayley set; sets 3 and 4 agree.

**Manifolds**

* C47: `result == &etax` gives wrong vectors.  C107: ScalarVectorAddVector on FixedRankE reads destroyed fields.
* C48, C49: LC transport of a zero vector or towards the opposite direction is 0/0; projection and Cayley
  transports copy operators unchanged; the sphere's HInvTran swaps ger's dimensions.
* C50, C116: the sphere exponential divides 0 by 0 at a zero step; SphereTx's transport divides 0 by 0 between
  opposite points.  C115: SphereTx does not move for steps below machine epsilon.
* C54: SPD DistAF omits the logarithm; ParallelTranslation multiplies by 0.  C87: gradients are not symmetrised.
* C58: the canonical-metric Hessian subtracts eta G^T x with coefficient 1 where 1/2 is needed.
* C83: Grassmann's extrinsic DiffRetraction is not horizontal.
* C55: extrinsic Retraction of a product switches every component to intrinsic; Beta is hidden, not overridden;
  TranHInvTran ignores its argument when the result is another object.
* C105, C106: FixedRankE's retraction may leave the manifold; its derivative divides 0 by 0 when dU or dV vanishes
  and has the wrong sign for negative multiples.
* Stiefel: the Cayley routines compute the extrinsic representation but read the intrinsic one;
  DiffCayleyRetraction converts at x instead of y; the canonical metric is silently Euclidean in intrinsic form.

**Problems, derivatives, data structures**

* C94: numerical Hessians mix a numerical gradient at x with the analytic one at y; a zero direction gives NaN.
* C98: SphereSparsestVector::EucHessianEta returns eta.  C99: ProxW leaves a tail unwritten.
* C12: handle slots are never reused.  C13: solve divides by alpha.  C14: block insertion offsets are wrong.
  C64: usaxpy does nothing.  C65: hermitian and empty unit-diagonal matrices are multiplied wrongly.
* C18: ValSpline is wrong unless breaks[0] = 0.  C19: periodic splines overlap their work arrays.
* SparseMatrix has no copy constructor (double destroy); out-of-range insertions are dropped silently.
* C170: MinPNormConHull stops on a small gradient only; a single given vector is always such a point, so a
  start at (or a stop near) a vertex returns it although shorter combinations exist.
* CFRankQ2FBlindDecon2D with rho != 0 reads past V when V has fewer than L entries, and runs for rank one
  only (C166-C168 assume L entries and rank one); StieSPCA's preconditioner returns zero weights for
  unsupported lengths; SFRQLyapunov::PreConditioner is the identity.

**Proximal mapping on tangent spaces (Manifold.cpp)**

* C118: when a line search fails after the first iteration, the step of the rejected trial is returned with the multiplier
  of the last accepted one; the step can raise the objective.
* C119: the first iteration accepts its tenth trial whatever the residual; later iterations reject a tenth trial even
  if it meets the decrease condition.

**Symmetric matrices of fixed rank (SymFixedRankQ.cpp)**

* C124: with the quotient Euclidean metric ObtainExtr needs a field that only ObtainIntr stores; called first at a point
  it has no answer.
* C125: the retraction of minus half of x is the zero matrix, off the manifold; with n < 2p the arrays are too small.
* C126: VectorTransportProj of intrinsic vectors does not project; DiffRetraction is the derivative only at the zero vector.
* C127: CheckParams prints the names of the metrics HGZ and QEUC exchanged.

**Matrices of fixed rank in two factors (FixedRankQ2F.cpp)**

* C132, C133: Retraction of minus x and ProjRetraction of minus half of x give the zero pair, off the manifold.
* C133: ProjRetraction reads out of bounds when m or n is below 2r.
* C134: InverseVectorTransport of extrinsic vectors takes coordinates at x instead of y, so it projects and does not
  undo VectorTransport.
* C144: CStiefel::ObtainNorVerExtr never writes the imaginary parts of the diagonal, so its result is normal only if
  the fresh memory holds zeros.
* C145: CStiefel::InvPolarRetraction and the canonical-metric branch of CStiefel::EucHvToHv write a complex p by p
  product into a real p by p matrix, past the end of its storage, for every n and p > 0.  InvPolarRetraction is
  reachable with parameter sets 3 and 4.
* C151, C152, C153: CFixedRankQ2F shares the four findings of FixedRankQ2F: Retraction of minus x and ProjRetraction of
  minus half of x leave the manifold, ProjRetraction reads 2r singular values although m or n may be below 2r, and
  InverseVectorTransport of extrinsic vectors uses x twice.
* C158, C159: CSymFixedRankQ shares the findings of SymFixedRankQ: the retraction of minus half of x is the zero matrix,
  with n < 2p the arrays are too small, VectorTransportProj of intrinsic vectors does not project, and DiffRetraction
  is the derivative only at the zero vector.
* C160: CheckParams prints SFRANKQHGZ for the metric CSFRANKQHGZ.

## 5. What is modelled and what is not

Modelled function by function (the citations in the `*Model.v` files give lines):
Manifolds/SmartSpace, Element (storage, fields, products, entry loops, transposition, submatrices, conversions,
Haar transform, sparse products), Manifold (tangent arithmetic, locking-condition transport, operators, semismooth Newton proximal mapping),
Stiefel, Grassmann, Sphere, SphereTx, SPDManifold, FixedRankE, SymFixedRankQ, FixedRankQ2F, CStiefel, CFixedRankQ2F, CSymFixedRankQ, MultiManifolds; Problems/Problem and the problem
classes named in C96-C101, C117, C135-C138, C146, C161-C164 and C166-C168; Solvers: SolversSM, SolversSMLS, SolversSMTR, RSD, RCG, RNewton, RBFGS, RWRBFGS,
RBroydenFamily, LRBFGS, RTRSD, RTRNewton, RTRSR1, LRTRSR1, SolversNSM*, ManPG, AManPG, RGS, RBFGSSub, LRBFGSSub
(run loops and parameters); Others: Spline, SparseBLAS, wavelet, MinPNormConHull, randgen.

Simplifications common to all areas: results are values unless aliasing or sharing is the subject of the property;
the cached fields of an element are modelled where a property depends on them and otherwise as the function that
computes them; complex arithmetic is modelled for entry loops, sparse matrices, CStiefel, CFixedRankQ2F, CSymFixedRankQ and phase retrieval; LAPACK routines
(QR, SVD, eigenvalues, Cholesky, Sylvester) and random numbers are arguments constrained by their documentation.

Not modelled:
the MATLAB, Julia and Python interfaces (also mexProblem and juliaProblem), ForDebug, Timer, test/, timing and printing.

## 6. Assumptions per theorem

What `Print Assumptions` lists for every theorem named in MANIFEST.json.  All are axioms of Coq's
standard library (its construction of the real numbers, functional extensionality, excluded middle).

* **Closed under the global context** (no axioms) - 382 theorems: C01_value_semantics, C02_no_dangling_access, C02_counts_and_no_leak, C03_assign_contents_partial, C03_assign_exact_partial, C03_assign_shape_refuted, C04_isolation_partial, C04_raw_update_refuted, C05_decompositions_current_partial, C05_reshape_refuted, C05_raw_update_refuted, C05_scaled_identity_refuted, C06_plain_partial, C06_copy_constructor_partial, C06_same_kind_partial, C06_all_partial, C06_proper, C06_add, C06_remove, C06_write, C06_copy_of_copy, C06_stale_refuted, C06_nested_lost_refuted, C06_shape_refuted, C07_sub_assign_unshared_partial, C07_sub_assign_shared_refuted, C07_block_real, C07_block_complex, C07_readback_real, C07_readback_complex, C08_slices_partial, C08_memory_partial, C08_owned_partial, C08_no_leak_partial, C08_copied_out_refuted, C08_no_storage_refuted, C08_dangling_refuted, C09_real, C09_complex, C09_real_twice, C09_complex_twice, C10_transform, C10_transform_2d, C10_inverse_defined, C10_inverse_defined_2d, C101_spca_weights, C101_spca_weights_place, C102_fields, C102_metric, C102_positive, C102_dimension, C103_projection, C103_gradient, C104_hessian_tangent, C104_hessian_symmetric, C104_hessian_derivative, C105_retraction_partial, C105_rank_refuted, C106_diff_retraction_partial, C106_zero_factor_refuted, C106_negative_multiple_refuted, C107_scalar_times, C107_scalar_vector_add_partial, C107_aliased_refuted, C107_linear_combination, C108_normal_coordinates, C108_after_retraction, C109_memory_partial, C109_transport_refuted, C109_second_run_refuted, C11_product, C11_element_products, C110_second_run_refuted, C111_interior_partial, C111_found_partial, C111_region_refuted, C111_rank_refuted, C112_boundary_partial, C112_region_refuted, C112_pole_refuted, C113_singular_partial, C113_one_pair_partial, C113_increase_refuted, C113_stale_refuted, C113_bounds_refuted, C114_secular, C114_newton, C116_refuted, C118_broken_off_refuted, C119_run_partial, C119_trials_refuted, C12_handles_partial, C12_destroy_partial, C12_reuse_refuted, C121_metric, C121_positive, C121_projection, C122_gradient, C123_horizontal, C123_euclidean, C123_acceleration, C123_hgz, C123_metric_derivative, C123_qeuc, C123_self_adjoint_euclidean, C123_self_adjoint, C124_coordinates_partial, C124_onto_partial, C124_refuted, C125_nearest_partial, C125_zero_partial, C125_first_order_partial, C125_collapse_refuted, C125_wide_refuted, C126_parallelization, C126_projection_partial, C126_projection_refuted, C126_diff_retraction_partial, C126_diff_coordinates_partial, C126_diff_retraction_refuted, C127_name_partial, C127_refuted, C127_parameter_sets_partial, C128_metric, C128_positive, C128_projection, C129_gradient, C129_product, C13_solve_partial, C13_solve_many_partial, C13_scaled_partial, C130_hessian, C130_horizontal, C130_acceleration, C130_input, C130_self_adjoint, C131_coordinates, C131_dimension, C132_retraction_partial, C132_retraction_refuted, C132_differentiated, C133_nearest_partial, C133_second_order_partial, C133_narrow_refuted, C133_collapse_refuted, C134_transport_partial, C134_inverse_refuted, C134_inverse, C139_complex_projection, C139_complex_gradients, C14_diagonal_partial, C14_below_refuted, C14_variable_refuted, C140_complex_hessian, C141_complex_qf_retraction, C141_complex_polar_retraction, C142_complex_diff_qf, C142_complex_diff_polar, C143_complex_coordinates, C143_complex_parallelization, C144_complex_normal_coordinates_partial, C144_complex_normal_coordinates_refuted, C145_complex_storage_partial, C145_complex_storage_refuted, C146_complex_brockett, C147_complex_fixed_rank_metric, C147_complex_fixed_rank_positive, C147_complex_fixed_rank_projection, C148_complex_fixed_rank_gradient, C148_complex_fixed_rank_product, C149_complex_fixed_rank_hessian, C149_complex_fixed_rank_horizontal, C149_complex_fixed_rank_acceleration, C149_complex_fixed_rank_input, C149_complex_fixed_rank_self_adjoint, C150_complex_fixed_rank_coordinates, C150_complex_fixed_rank_dimension, C151_complex_fixed_rank_retraction_partial, C151_complex_fixed_rank_retraction_refuted, C151_complex_fixed_rank_differentiated, C152_complex_fixed_rank_nearest_partial, C152_complex_fixed_rank_second_order_partial, C152_complex_fixed_rank_narrow_refuted, C152_complex_fixed_rank_collapse_refuted, C153_complex_fixed_rank_transport_partial, C153_complex_fixed_rank_inverse_refuted, C153_complex_fixed_rank_inverse, C154_metric, C154_positive, C154_projection, C155_gradient, C156_horizontal, C156_euclidean, C156_acceleration, C156_hgz, C156_metric_derivative, C156_self_adjoint_euclidean, C156_self_adjoint, C157_coordinates, C157_onto, C158_nearest_partial, C158_zero_partial, C158_first_order_partial, C158_collapse_refuted, C158_wide_refuted, C159_parallelization, C159_projection_partial, C159_projection_refuted, C159_diff_retraction_partial, C159_diff_coordinates_partial, C159_diff_retraction_refuted, C160_name_partial, C160_refuted, C160_parameter_sets_partial, C161_phase_cost, C162_phase_gradient, C163_phase_hessian, C164_phase_quotient, C165_fourier, C165_intensities, C166_blind_cost, C167_blind_gradient, C168_blind_hessian, C169_hull_vector, C170_shortest_partial, C170_certificate_partial, C170_first_order_refuted, C18_shifted_breaks_refuted, C19_uniform_kink_refuted, C19_kink_refuted, C19_three_points_refuted, C19_solver_refuted, C21_iterations_bounded, C21_run_returns, C21_records_in_bounds_partial, C21_histories, C21_out_of_bounds_refuted, C21_step_histories, C22_returned_value, C23_armijo_success_computed, C24_window_partial, C24_short_window_refuted, C25_wolfe_nan_refuted, C25_armijo_infinite_step_refuted, C26_strong_wolfe_computed, C27_wolfe_decrease_refuted, C27_wolfe_curvature_refuted, C28_run_step_partial, C28_exact_partial, C28_wolfe_partial, C28_armijo_min_step_refuted, C30_accuracy_refuted, C31_min_inner_refuted, C32_min_inner_refuted, C33_series_partial, C33_entry_partial, C33_rejected_refuted, C34_normal_stop, C35_set_partial, C35_order, C35_truncated_refuted, C36_memory, C36_memory_restart, C37_two_loops, C39_sr1_second_refuted, C39_sr1_nan_refuted, C40_second_run_refuted, C40_second_run_partial, C41_nan_refuted, C42_infinite_step_refuted, C42_above_max_refuted, C43_binary64, C43_accelerated_binary64, C44_nan_refuted, C45_iterations_partial, C48_refuted, C50_refuted, C52_stiefel_projection, C52_grassmann_projection, C52_gradients, C53_stiefel_coordinates, C53_grassmann_coordinates, C53_normal_coordinates, C54_distance_partial, C54_distance_refuted, C54_parallel_translation_refuted, C55_metric_sum, C55_dist, C55_projection, C55_transports, C55_coordinates, C55_retraction_partial, C55_retraction_extrinsic, C55_settings_refuted, C55_alias_refuted, C55_tran_refuted, C56_rbfgs_partial, C56_rwrbfgs_partial, C56_rbfgs_refuted, C56_rwrbfgs_refuted, C57_entries, C57_storage, C57_short_result, C58_hessian_conversion_partial, C58_hessian_conversion_refuted, C58_grassmann_hessian, C59_gradient_partial, C59_stale_gradient_refuted, C60_returned, C61_returns, C61_in_bounds_partial, C61_out_of_bounds_refuted, C64_dot_partial, C64_gather_partial, C64_gather_zero_partial, C64_scatter_partial, C65_structured_partial, C65_product_many_partial, C68_increase_refuted, C69_direction_length_partial, C69_uninitialised_refuted, C70_nan_refuted, C71_paramset, C71_outside, C71_hhr_alone, C71_unknown, C71_both_partial, C71_both_refuted, C72_values_partial, C72_write_parent_first, C72_shared_refuted, C74_identity, C74_scaled_identity, C74_diagonal_left, C74_diagonal_transpose, C75_from_real_partial, C75_real_part_refuted, C77_qf_retraction, C77_polar_retraction, C77_cayley_retraction, C78_polar_retraction_nearest, C79_diff_qf_retraction, C79_diff_polar_retraction, C79_diff_cayley_retraction, C79_diff_polar_velocity, C80_qf_cotangent, C80_grassmann_cotangent, C81_cayley_transport, C82_inverse_polar, C82_inverse_polar_right, C83_grassmann_derivative_partial, C83_grassmann_derivative_refuted, C86_metric, C86_projection, C87_gradient_partial, C87_gradient_refuted, C87_hessian, C88_coordinates_affine, C88_coordinates_euclidean, C89_second_order_retraction, C90_exponential_retraction, C91_parallelization_transport, C92_dimensions, C93_symmetric, C93_isometric, C95_gradient, C95_hessian, C96_quadratic, C96_quadratic_needs_symmetry, C96_brockett, C96_rayleigh, C96_product_brockett, C96_weighted_approximation, C96_lyapunov, C96_matrix_completion, C96_convex_hull, C96_tangent_rayleigh, C97_sparse_approximation, C97_sparse_pca, C98_sparsest_gradient_partial, C98_sparsest_hessian_refuted, C99_tail_unwritten.
* `ClassicalDedekindReals.sig_forall_dec`, `FunctionalExtensionality.functional_extensionality_dep` - 13 theorems: C11_real_and_complex, C13_alpha_refuted, C14_above_refuted, C14_stride_refuted, C16_slope_is_derivative, C16_bend_is_derivative, C171_uniform, C19_solver_refuted_regular, C55_tran_partial, C64_axpy_refuted, C65_hermitian_diagonal_refuted, C65_hermitian_product_refuted, C65_unit_refuted.
* `ClassicalDedekindReals.sig_forall_dec`, `ClassicalDedekindReals.sig_not_dec`, `FunctionalExtensionality.functional_extensionality_dep` - 106 theorems: C10_round_trip, C10_round_trip_2d, C10_energy, C10_energy_2d, C100_generalized_jacobian, C101_spca_prox, C110_operator_partial, C115_projection, C115_random_point, C116_transports_partial, C116_derivative_same_direction_partial, C117_derivatives, C117_hessian_symmetric, C117_extreme_eigenvalues, C118_step_optimal_partial, C118_exact_solution_partial, C118_distance_partial, C118_soft_threshold, C119_residual_partial, C120_matrix, C120_conjugate_gradients, C120_newton_direction, C15_slopes, C15_uniform_slopes, C15_periodic, C15_uniform_periodic, C16_slopes, C16_uniform_slopes, C17_tridiagonal, C18_piece_partial, C18_uniform_defined, C18_uniform, C18_fit_then_evaluate, C19_periodic_partial, C19_uniform_periodic_partial, C19_solver_partial, C20_derivatives, C20_uniform_derivatives, C23_armijo_success, C23_armijo_run, C25_armijo_terminates, C25_strong_wolfe_terminates, C25_exact_terminates, C25_wolfe_terminates_partial, C26_strong_wolfe_success, C27_wolfe_success_partial, C29_radius_bounds, C30_step_partial, C30_monotone_partial, C30_newton_monotone, C31_norm_partial, C31_preconditioned_partial, C32_model_partial, C37_recursion, C37_positive, C38_secant, C38_formula, C38_run, C38_run_rw, C38_secant_rw, C39_broyden, C39_broyden_update, C39_sr1_partial, C41_descent_partial, C42_initial_step_partial, C43_retries_bounded, C43_accelerated_bounded, C44_safeguard_partial, C45_passes_partial, C45_forever_refuted, C46_residual_partial, C46_first_refuted, C47_scalar_times_vector, C47_result_on_operand_partial, C47_refuted, C48_locking_condition_transport_partial, C49_locking_condition_operators_partial, C49_sphere_operators, C49_matvec, C49_refuted, C50_sphere_exponential_partial, C51_parallel_translation, C55_metric_refuted, C56_rbfgssub, C62_residual, C63_slopes_succeed, C63_uniform_slopes_succeed, C66_newton_descent, C67_linear_cg, C68_values_partial, C70_wolfe_partial, C73_add_sub, C73_scalars, C73_divide_by, C73_divide_into, C73_divide, C73_real, C74_norms, C76_refuted, C84_exponential_derivative, C85_sphere_locking_condition, C94_mixed_refuted, C94_zero_refuted, C99_prox_minimises_partial, C99_prox_nonexpansive_partial, C99_prox_function_refuted.
* `ClassicalDedekindReals.sig_forall_dec`, `ClassicalDedekindReals.sig_not_dec`, `Classical_Prop.classic`, `FunctionalExtensionality.functional_extensionality_dep` - 6 theorems: C115_retraction_partial, C115_refuted, C172_normal, C172_never_returns, C57_mean_value, C94_mean_value_partial.
* `ClassicalDedekindReals.sig_forall_dec`, `ClassicalDedekindReals.sig_not_dec`, `Classical_Prop.classic`, `Epsilon.epsilon_statement`, `FunctionalExtensionality.functional_extensionality_dep` - 6 theorems: C135_value, C135_zero, C136_gradient, C137_hessian, C137_self_adjoint, C138_convex.

The non-vacuity examples use the same axioms; the example of C90 over Coq's reals (RealsRcf.v) also uses
`Epsilon.epsilon_statement`.
