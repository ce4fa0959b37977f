{
 "claims": [
  {
   "property": "C01",
   "status": "proved",
   "theorems": [
    "C01_value_semantics"
   ],
   "note": "Observational refinement of the copy-on-write heap by private arrays, for every program of constructions, copies, assignments, destructions and write accesses."
  },
  {
   "property": "C02",
   "status": "proved",
   "theorems": [
    "C02_no_dangling_access",
    "C02_counts_and_no_leak"
   ],
   "note": "Every program, including reshapes and raw-pointer updates; product objects and allocation failure not modelled."
  },
  {
   "property": "C03",
   "status": "partial",
   "theorems": [
    "C03_assign_contents_partial",
    "C03_assign_exact_partial",
    "C03_assign_shape_refuted"
   ],
   "note": "False as stated: assignment between sharers returns early and keeps the old shape. Proved: contents always follow; shape too if no in-place reshape happened."
  },
  {
   "property": "C04",
   "status": "partial",
   "theorems": [
    "C04_isolation_partial",
    "C04_raw_update_refuted"
   ],
   "note": "False of HaddRankone and Conj, which write through the raw pointer; proved for every other operation after any program."
  },
  {
   "property": "C05",
   "status": "partial",
   "theorems": [
    "C05_decompositions_current_partial",
    "C05_reshape_refuted",
    "C05_raw_update_refuted",
    "C05_scaled_identity_refuted"
   ],
   "note": "False after Reshape, HaddRankone/Conj and ScaledIdOPE, which keep the cached fields; proved for programs without them."
  },
  {
   "property": "C06",
   "status": "partial",
   "theorems": [
    "C06_plain_partial",
    "C06_copy_constructor_partial",
    "C06_same_kind_partial",
    "C06_all_partial",
    "C06_proper",
    "C06_add",
    "C06_remove",
    "C06_write",
    "C06_copy_of_copy",
    "C06_stale_refuted",
    "C06_nested_lost_refuted",
    "C06_shape_refuted"
   ],
   "note": "Exact for every element without components (any depth of attached elements, any target), for the copy constructor when components are not products, and between products of the same kind when the target's components carry no extra names. Otherwise a target component keeps names of its own, what is attached to nested components is lost, and components keep their shape when only lengths agree."
  },
  {
   "property": "C07",
   "status": "partial",
   "theorems": [
    "C07_sub_assign_unshared_partial",
    "C07_sub_assign_shared_refuted",
    "C07_block_real",
    "C07_block_complex",
    "C07_readback_real",
    "C07_readback_complex"
   ],
   "note": "False on shared storage (the entries outside the block are uninitialised); proved when the storage is not shared. The block loops are proved for real and complex matrices of any size."
  },
  {
   "property": "C08",
   "status": "partial",
   "theorems": [
    "C08_slices_partial",
    "C08_memory_partial",
    "C08_owned_partial",
    "C08_no_leak_partial",
    "C08_copied_out_refuted",
    "C08_no_storage_refuted",
    "C08_dangling_refuted"
   ],
   "note": "Every reachable state of every program that writes components in place. Copying a component out into a variable, or writing a component of a product without storage, breaks the property; a copied-out component dangles when the product dies. Components are flat (not products themselves)."
  },
  {
   "property": "C09",
   "status": "proved",
   "theorems": [
    "C09_real",
    "C09_complex",
    "C09_real_twice",
    "C09_complex_twice"
   ],
   "note": "Any arithmetic; the complex involution needs -(-x) = x, which holds in binary64 and over the reals."
  },
  {
   "property": "C10",
   "status": "proved",
   "theorems": [
    "C10_transform",
    "C10_transform_2d",
    "C10_inverse_defined",
    "C10_inverse_defined_2d",
    "C10_round_trip",
    "C10_round_trip_2d",
    "C10_energy",
    "C10_energy_2d"
   ],
   "note": "All lengths, including those that are not powers of two. The forward transforms equal the textbook transform in any arithmetic (memory-safe and terminating). Round trip both ways and energy in exact arithmetic. Element::GetHaarFWT/GetInvHaarFWT run the same loops on a copy."
  },
  {
   "property": "C100",
   "status": "proved",
   "theorems": [
    "C100_generalized_jacobian"
   ],
   "note": ""
  },
  {
   "property": "C101",
   "status": "proved",
   "theorems": [
    "C101_spca_weights",
    "C101_spca_weights_place",
    "C101_spca_prox"
   ],
   "note": ""
  },
  {
   "property": "C102",
   "status": "proved",
   "theorems": [
    "C102_fields",
    "C102_metric",
    "C102_positive",
    "C102_dimension"
   ],
   "note": "Real arithmetic."
  },
  {
   "property": "C103",
   "status": "proved",
   "theorems": [
    "C103_projection",
    "C103_gradient"
   ],
   "note": ""
  },
  {
   "property": "C104",
   "status": "proved",
   "theorems": [
    "C104_hessian_tangent",
    "C104_hessian_symmetric",
    "C104_hessian_derivative"
   ],
   "note": ""
  },
  {
   "property": "C105",
   "status": "partial",
   "theorems": [
    "C105_retraction_partial",
    "C105_rank_refuted"
   ],
   "note": "QR and SVD are assumed correct. Holds whenever D + dD is invertible, in particular for all short steps. A step to a singular D + dD leaves the manifold and Retraction does not notice."
  },
  {
   "property": "C106",
   "status": "partial",
   "theorems": [
    "C106_diff_retraction_partial",
    "C106_zero_factor_refuted",
    "C106_negative_multiple_refuted"
   ],
   "note": "Holds for nonnegative multiples of a step that moves both U and V. A step with dU = 0 or dV = 0 divides 0 by 0, and a negative multiple gets the sign of dU and dV wrong."
  },
  {
   "property": "C107",
   "status": "partial",
   "theorems": [
    "C107_scalar_times",
    "C107_scalar_vector_add_partial",
    "C107_aliased_refuted",
    "C107_linear_combination"
   ],
   "note": "ScalarVectorAddVector fails when the result is the scaled vector: the assignment to result destroys the fields it reads next."
  },
  {
   "property": "C108",
   "status": "proved",
   "theorems": [
    "C108_normal_coordinates",
    "C108_after_retraction"
   ],
   "note": "Householder QR is assumed to return an orthogonal matrix that makes the argument upper trapezoidal."
  },
  {
   "property": "C109",
   "status": "partial",
   "theorems": [
    "C109_memory_partial",
    "C109_transport_refuted",
    "C109_second_run_refuted"
   ],
   "note": "Any arithmetic with a symmetric metric. Holds for isometric transports on a fresh solver. The tables are not recomputed after a transport, so a non-isometric one makes them wrong; a second Run keeps Currentlength and beginidx with fresh empty arrays."
  },
  {
   "property": "C11",
   "status": "proved",
   "theorems": [
    "C11_product",
    "C11_element_products",
    "C11_real_and_complex"
   ],
   "note": "Any field with conjugation, so real and complex. Products with one vector for any stride, all three transposition modes, and the operators between SparseMatrix and Element."
  },
  {
   "property": "C110",
   "status": "partial",
   "theorems": [
    "C110_operator_partial",
    "C110_second_run_refuted"
   ],
   "note": "Exact arithmetic, isometric transports, a correct linear solver for the middle matrix; the second Run fails as in C109."
  },
  {
   "property": "C111",
   "status": "partial",
   "theorems": [
    "C111_interior_partial",
    "C111_found_partial",
    "C111_region_refuted",
    "C111_rank_refuted"
   ],
   "note": "Exact arithmetic over any real closed field; QR and eigendecomposition correct. Holds when the small system passes the rank test, up to the overlooked part of the gradient. A part of the gradient outside the pairs with squared length below 1e-10 is dropped, so the step can leave the region; the rank test depends on the scaling of the pairs and then falls back to -g/gamma."
  },
  {
   "property": "C112",
   "status": "partial",
   "theorems": [
    "C112_boundary_partial",
    "C112_region_refuted",
    "C112_pole_refuted"
   ],
   "note": "The step is optimal among steps no longer than itself, but Newton's iterates stay left of the root, so it is longer than the radius; a negative gradient component along the lowest eigenvector starts Newton at the pole and the step is 1/(10 eps_tol) times too long."
  },
  {
   "property": "C113",
   "status": "partial",
   "theorems": [
    "C113_singular_partial",
    "C113_one_pair_partial",
    "C113_increase_refuted",
    "C113_stale_refuted",
    "C113_bounds_refuted"
   ],
   "note": "Holds for a lowest eigenvalue 0 and for one pair. When gamma is the lowest eigenvalue the code adds instead of subtracting the projection and may raise the model; pStar is stale after eta2 is reassigned; with two or more pairs the whole eigenvector matrix is written over the step."
  },
  {
   "property": "C114",
   "status": "proved",
   "theorems": [
    "C114_secular",
    "C114_newton"
   ],
   "note": "Exact arithmetic; eigenvalues and gradient components are zero or above the tolerances."
  },
  {
   "property": "C115",
   "status": "partial",
   "theorems": [
    "C115_projection",
    "C115_random_point",
    "C115_retraction_partial",
    "C115_refuted"
   ],
   "note": "Exact arithmetic; the metric at the root is an inner product and Projection an orthogonal projection. Retraction is within eps of the exponential map and equal to it for steps of length at least eps; shorter steps return x itself, so in exact arithmetic t -> R(t eta) has velocity 0 at 0."
  },
  {
   "property": "C116",
   "status": "partial",
   "theorems": [
    "C116_transports_partial",
    "C116_derivative_same_direction_partial",
    "C116_refuted"
   ],
   "note": "Holds unless y = -x, where the transport is 0/0 (binary64 witness). DiffRetraction in other directions is not implemented in the code."
  },
  {
   "property": "C117",
   "status": "proved",
   "theorems": [
    "C117_derivatives",
    "C117_hessian_symmetric",
    "C117_extreme_eigenvalues"
   ],
   "note": "Exact arithmetic; that the runs of RTRNewton reach second-order points is a hypothesis."
  },
  {
   "property": "C118",
   "status": "partial",
   "theorems": [
    "C118_step_optimal_partial",
    "C118_exact_solution_partial",
    "C118_distance_partial",
    "C118_soft_threshold",
    "C118_broken_off_refuted"
   ],
   "note": "Proved for runs that are not broken off. Refuted: when a line search fails after the first iteration, the function returns the step of the rejected trial, which does not belong to the returned multiplier and can raise the objective."
  },
  {
   "property": "C119",
   "status": "partial",
   "theorems": [
    "C119_run_partial",
    "C119_residual_partial",
    "C119_trials_refuted"
   ],
   "note": "Bounds and stopping proved in any arithmetic, residual bound in exact arithmetic up to the first iteration. Refuted: the first iteration accepts its tenth trial whatever the residual, and later iterations reject a tenth trial that meets the condition."
  },
  {
   "property": "C12",
   "status": "partial",
   "theorems": [
    "C12_handles_partial",
    "C12_destroy_partial",
    "C12_reuse_refuted"
   ],
   "note": "Validity and distinctness proved for every history. Slots of destroyed matrices are never reused (the test in Table_insert is always true)."
  },
  {
   "property": "C120",
   "status": "proved",
   "theorems": [
    "C120_matrix",
    "C120_conjugate_gradients",
    "C120_newton_direction"
   ],
   "note": "Exact arithmetic."
  },
  {
   "property": "C121",
   "status": "proved",
   "theorems": [
    "C121_metric",
    "C121_positive",
    "C121_projection"
   ],
   "note": "exact arithmetic; the Sylvester solver is an argument, and one is shown to exist for every size"
  },
  {
   "property": "C122",
   "status": "proved",
   "theorems": [
    "C122_gradient"
   ],
   "note": "exact arithmetic"
  },
  {
   "property": "C123",
   "status": "proved",
   "theorems": [
    "C123_horizontal",
    "C123_euclidean",
    "C123_acceleration",
    "C123_hgz",
    "C123_metric_derivative",
    "C123_qeuc",
    "C123_self_adjoint_euclidean",
    "C123_self_adjoint"
   ],
   "note": "exact arithmetic; the function enters through its first and second derivatives"
  },
  {
   "property": "C124",
   "status": "partial",
   "theorems": [
    "C124_coordinates_partial",
    "C124_onto_partial",
    "C124_refuted"
   ],
   "note": "with the quotient Euclidean metric ObtainExtr has no answer at a point where ObtainIntr was never called: refuted; proved for calls after an ObtainIntr at the point, and always for the other two metrics"
  },
  {
   "property": "C125",
   "status": "partial",
   "theorems": [
    "C125_nearest_partial",
    "C125_zero_partial",
    "C125_first_order_partial",
    "C125_collapse_refuted",
    "C125_wide_refuted"
   ],
   "note": "the result can lose rank (the zero matrix for minus half of x), and for n < 2p there is none: refuted; proved for n >= 2p, full rank under two sufficient conditions"
  },
  {
   "property": "C126",
   "status": "partial",
   "theorems": [
    "C126_parallelization",
    "C126_projection_partial",
    "C126_projection_refuted",
    "C126_diff_retraction_partial",
    "C126_diff_coordinates_partial",
    "C126_diff_retraction_refuted"
   ],
   "note": "intrinsic transport by projection does not project, and DiffRetraction is not the derivative away from the zero vector: refuted"
  },
  {
   "property": "C127",
   "status": "partial",
   "theorems": [
    "C127_name_partial",
    "C127_refuted",
    "C127_parameter_sets_partial"
   ],
   "note": "the names of HGZ and QEUC are exchanged: refuted"
  },
  {
   "property": "C128",
   "status": "proved",
   "theorems": [
    "C128_metric",
    "C128_positive",
    "C128_projection"
   ],
   "note": "exact arithmetic; the Cholesky routine is an argument, and one is shown to exist for every size"
  },
  {
   "property": "C129",
   "status": "proved",
   "theorems": [
    "C129_gradient",
    "C129_product"
   ],
   "note": "exact arithmetic"
  },
  {
   "property": "C13",
   "status": "partial",
   "theorems": [
    "C13_solve_partial",
    "C13_solve_many_partial",
    "C13_scaled_partial",
    "C13_alpha_refuted"
   ],
   "note": "Proved for alpha = 1, lower, upper, transposed, conjugated. For other alpha the code divides by alpha instead of multiplying."
  },
  {
   "property": "C130",
   "status": "proved",
   "theorems": [
    "C130_hessian",
    "C130_horizontal",
    "C130_acceleration",
    "C130_input",
    "C130_self_adjoint"
   ],
   "note": "exact arithmetic; the function enters through its first and second derivatives"
  },
  {
   "property": "C131",
   "status": "proved",
   "theorems": [
    "C131_coordinates",
    "C131_dimension"
   ],
   "note": "exact arithmetic; Householder factorisations are arguments, shown to exist for every matrix"
  },
  {
   "property": "C132",
   "status": "partial",
   "theorems": [
    "C132_retraction_partial",
    "C132_retraction_refuted",
    "C132_differentiated"
   ],
   "note": "for minus x the result is the zero pair, off the manifold: refuted for all vectors; proved for all sufficiently small ones, the other claims for all vectors"
  },
  {
   "property": "C133",
   "status": "partial",
   "theorems": [
    "C133_nearest_partial",
    "C133_second_order_partial",
    "C133_narrow_refuted",
    "C133_collapse_refuted"
   ],
   "note": "with m or n below 2r the arrays are read out of bounds, and for minus half of x the result is the zero pair: refuted; otherwise proved (Eckart-Young), with the exact condition for a point"
  },
  {
   "property": "C134",
   "status": "partial",
   "theorems": [
    "C134_transport_partial",
    "C134_inverse_refuted",
    "C134_inverse"
   ],
   "note": "InverseVectorTransport of extrinsic vectors takes the coordinates at x instead of y, so it only projects at x: refuted; transport and its inverse by exchanged arguments proved"
  },
  {
   "property": "C135",
   "status": "proved",
   "theorems": [
    "C135_value",
    "C135_zero"
   ],
   "note": "real arithmetic with the logarithm of Coq's reals; Cholesky and eigenvalue routines are arguments, shown to exist for every size"
  },
  {
   "property": "C136",
   "status": "proved",
   "theorems": [
    "C136_gradient"
   ],
   "note": "derivative in the sense of Frechet with a quadratic remainder"
  },
  {
   "property": "C137",
   "status": "proved",
   "theorems": [
    "C137_hessian",
    "C137_self_adjoint"
   ],
   "note": "derivative in the sense of Frechet with a quadratic remainder"
  },
  {
   "property": "C138",
   "status": "proved",
   "theorems": [
    "C138_convex"
   ],
   "note": "the bound on the Hessian at every point and for every number of samples"
  },
  {
   "property": "C139",
   "status": "proved",
   "theorems": [
    "C139_complex_projection",
    "C139_complex_gradients"
   ],
   "note": "complex matrices over any real closed field"
  },
  {
   "property": "C14",
   "status": "partial",
   "theorems": [
    "C14_diagonal_partial",
    "C14_below_refuted",
    "C14_above_refuted",
    "C14_stride_refuted",
    "C14_variable_refuted"
   ],
   "note": "False: column offset taken from the row block, row stride applied on top of the consumed row, offsets of variable blocks all zero. Diagonal blocks of fixed size are right if the gap is passed as row stride."
  },
  {
   "property": "C140",
   "status": "proved",
   "theorems": [
    "C140_complex_hessian"
   ],
   "note": "Euclidean metric, the one every parameter set selects; the canonical conversion overruns its storage, see C145"
  },
  {
   "property": "C141",
   "status": "proved",
   "theorems": [
    "C141_complex_qf_retraction",
    "C141_complex_polar_retraction"
   ],
   "note": "QR and SVD are arguments constrained by LAPACK's documentation"
  },
  {
   "property": "C142",
   "status": "proved",
   "theorems": [
    "C142_complex_diff_qf",
    "C142_complex_diff_polar"
   ],
   "note": "along other directions the polar derivative prints that it is not implemented"
  },
  {
   "property": "C143",
   "status": "proved",
   "theorems": [
    "C143_complex_coordinates",
    "C143_complex_parallelization"
   ],
   "note": "the factorisation attached to a point is that of the point or of the matrix the qf retraction factorised"
  },
  {
   "property": "C144",
   "status": "partial",
   "theorems": [
    "C144_complex_normal_coordinates_partial",
    "C144_complex_normal_coordinates_refuted"
   ],
   "note": "ObtainNorVerExtr leaves the imaginary parts of the diagonal unwritten; refuted for memory that is not zero"
  },
  {
   "property": "C145",
   "status": "partial",
   "theorems": [
    "C145_complex_storage_partial",
    "C145_complex_storage_refuted"
   ],
   "note": "InvPolarRetraction and the canonical EucHvToHv write complex products into real matrices"
  },
  {
   "property": "C146",
   "status": "proved",
   "theorems": [
    "C146_complex_brockett"
   ],
   "note": ""
  },
  {
   "property": "C147",
   "status": "proved",
   "theorems": [
    "C147_complex_fixed_rank_metric",
    "C147_complex_fixed_rank_positive",
    "C147_complex_fixed_rank_projection"
   ],
   "note": "exact arithmetic; the Cholesky routine is an argument, and one is shown to exist for every size; complex matrices over any real closed field"
  },
  {
   "property": "C148",
   "status": "proved",
   "theorems": [
    "C148_complex_fixed_rank_gradient",
    "C148_complex_fixed_rank_product"
   ],
   "note": "exact arithmetic; complex matrices over any real closed field"
  },
  {
   "property": "C149",
   "status": "proved",
   "theorems": [
    "C149_complex_fixed_rank_hessian",
    "C149_complex_fixed_rank_horizontal",
    "C149_complex_fixed_rank_acceleration",
    "C149_complex_fixed_rank_input",
    "C149_complex_fixed_rank_self_adjoint"
   ],
   "note": "exact arithmetic; the function enters through its first and second derivatives; complex matrices over any real closed field"
  },
  {
   "property": "C15",
   "status": "proved",
   "theorems": [
    "C15_slopes",
    "C15_uniform_slopes",
    "C15_periodic",
    "C15_uniform_periodic"
   ],
   "note": "Exact arithmetic; memory safety included. The periodic routines need at least four points."
  },
  {
   "property": "C150",
   "status": "proved",
   "theorems": [
    "C150_complex_fixed_rank_coordinates",
    "C150_complex_fixed_rank_dimension"
   ],
   "note": "exact arithmetic; Householder factorisations are arguments, shown to exist for every matrix; complex matrices over any real closed field"
  },
  {
   "property": "C151",
   "status": "partial",
   "theorems": [
    "C151_complex_fixed_rank_retraction_partial",
    "C151_complex_fixed_rank_retraction_refuted",
    "C151_complex_fixed_rank_differentiated"
   ],
   "note": "for minus x the result is the zero pair, off the manifold: refuted for all vectors; proved for all sufficiently small ones, the other claims for all vectors; complex matrices over any real closed field"
  },
  {
   "property": "C152",
   "status": "partial",
   "theorems": [
    "C152_complex_fixed_rank_nearest_partial",
    "C152_complex_fixed_rank_second_order_partial",
    "C152_complex_fixed_rank_narrow_refuted",
    "C152_complex_fixed_rank_collapse_refuted"
   ],
   "note": "with m or n below 2r the arrays are read out of bounds, and for minus half of x the result is the zero pair: refuted; otherwise proved (Eckart-Young), with the exact condition for a point; complex matrices over any real closed field"
  },
  {
   "property": "C153",
   "status": "partial",
   "theorems": [
    "C153_complex_fixed_rank_transport_partial",
    "C153_complex_fixed_rank_inverse_refuted",
    "C153_complex_fixed_rank_inverse"
   ],
   "note": "InverseVectorTransport of extrinsic vectors takes the coordinates at x instead of y, so it only projects at x: refuted; transport and its inverse by exchanged arguments proved; complex matrices over any real closed field"
  },
  {
   "property": "C154",
   "status": "proved",
   "theorems": [
    "C154_metric",
    "C154_positive",
    "C154_projection"
   ],
   "note": "exact arithmetic; complex matrices over any real closed field"
  },
  {
   "property": "C155",
   "status": "proved",
   "theorems": [
    "C155_gradient"
   ],
   "note": "exact arithmetic; complex matrices over any real closed field"
  },
  {
   "property": "C156",
   "status": "proved",
   "theorems": [
    "C156_horizontal",
    "C156_euclidean",
    "C156_acceleration",
    "C156_hgz",
    "C156_metric_derivative",
    "C156_self_adjoint_euclidean",
    "C156_self_adjoint"
   ],
   "note": "exact arithmetic; the function enters through its first and second derivatives"
  },
  {
   "property": "C157",
   "status": "proved",
   "theorems": [
    "C157_coordinates",
    "C157_onto"
   ],
   "note": "the Householder decomposition is an argument, and one is shown to exist at every point"
  },
  {
   "property": "C158",
   "status": "partial",
   "theorems": [
    "C158_nearest_partial",
    "C158_zero_partial",
    "C158_first_order_partial",
    "C158_collapse_refuted",
    "C158_wide_refuted"
   ],
   "note": "the result can lose rank (the zero matrix for minus half of x), and for n < 2p there is none: refuted; proved for n >= 2p, full rank under two sufficient conditions"
  },
  {
   "property": "C159",
   "status": "partial",
   "theorems": [
    "C159_parallelization",
    "C159_projection_partial",
    "C159_projection_refuted",
    "C159_diff_retraction_partial",
    "C159_diff_coordinates_partial",
    "C159_diff_retraction_refuted"
   ],
   "note": "intrinsic transport by projection does not project, and DiffRetraction is not the derivative away from the zero vector: refuted"
  },
  {
   "property": "C16",
   "status": "proved",
   "theorems": [
    "C16_slopes",
    "C16_uniform_slopes",
    "C16_slope_is_derivative",
    "C16_bend_is_derivative"
   ],
   "note": "Exact arithmetic; the prescribed slopes are the end difference quotients, as in the code."
  },
  {
   "property": "C160",
   "status": "partial",
   "theorems": [
    "C160_name_partial",
    "C160_refuted",
    "C160_parameter_sets_partial"
   ],
   "note": "for HGZ the name SFRANKQHGZ is printed, which is no metric of the class: refuted"
  },
  {
   "property": "C161",
   "status": "proved",
   "theorems": [
    "C161_phase_cost"
   ],
   "note": "exact arithmetic; complex matrices over any real closed field; FFTW as documented"
  },
  {
   "property": "C162",
   "status": "proved",
   "theorems": [
    "C162_phase_gradient"
   ],
   "note": "exact arithmetic; complex matrices over any real closed field; FFTW as documented"
  },
  {
   "property": "C163",
   "status": "proved",
   "theorems": [
    "C163_phase_hessian"
   ],
   "note": "exact arithmetic; complex matrices over any real closed field; FFTW as documented"
  },
  {
   "property": "C164",
   "status": "proved",
   "theorems": [
    "C164_phase_quotient"
   ],
   "note": "exact arithmetic; complex matrices over any real closed field; FFTW as documented"
  },
  {
   "property": "C165",
   "status": "proved",
   "theorems": [
    "C165_fourier",
    "C165_intensities"
   ],
   "note": "exact arithmetic; complex matrices over any real closed field; FFTW as documented"
  },
  {
   "property": "C166",
   "status": "proved",
   "theorems": [
    "C166_blind_cost"
   ],
   "note": "exact arithmetic; complex matrices over any real closed field; FFTW as documented; the Haar transform as an isometric matrix with its inverse, which C10 proves of its loops; rank one, the only rank the code accepts"
  },
  {
   "property": "C167",
   "status": "proved",
   "theorems": [
    "C167_blind_gradient"
   ],
   "note": "exact arithmetic; complex matrices over any real closed field; FFTW as documented; the Haar transform as an isometric matrix with its inverse, which C10 proves of its loops; rank one, the only rank the code accepts"
  },
  {
   "property": "C168",
   "status": "proved",
   "theorems": [
    "C168_blind_hessian"
   ],
   "note": "exact arithmetic; complex matrices over any real closed field; FFTW as documented; the Haar transform as an isometric matrix with its inverse, which C10 proves of its loops; rank one, the only rank the code accepts; the code documents that the Hessian leaves the penalty out"
  },
  {
   "property": "C169",
   "status": "proved",
   "theorems": [
    "C169_hull_vector"
   ],
   "note": "exact arithmetic over any real closed field; RTRNewton is an arbitrary function to the sphere"
  },
  {
   "property": "C17",
   "status": "proved",
   "theorems": [
    "C17_tridiagonal"
   ],
   "note": "Exact arithmetic, any disjoint placement of the arrays."
  },
  {
   "property": "C170",
   "status": "partial",
   "theorems": [
    "C170_shortest_partial",
    "C170_certificate_partial",
    "C170_first_order_refuted"
   ],
   "note": "exact arithmetic over any real closed field; RTRNewton is an arbitrary function to the sphere. Proved at every second-order point of the inner problem (no spurious minima), and up to twice delta under a checkable test at any point. The inner solver's stopping test, a small gradient, does not imply it: refuted at a vertex. Missing: convergence of RTRNewton to a second-order point."
  },
  {
   "property": "C171",
   "status": "proved",
   "theorems": [
    "C171_uniform"
   ],
   "note": "real arithmetic, so without rounding; the C library's rand is any sequence within its documented range"
  },
  {
   "property": "C172",
   "status": "proved",
   "theorems": [
    "C172_normal",
    "C172_never_returns"
   ],
   "note": "real arithmetic, so without rounding; the C library's rand is any sequence within its documented range"
  },
  {
   "property": "C18",
   "status": "partial",
   "theorems": [
    "C18_piece_partial",
    "C18_uniform_defined",
    "C18_uniform",
    "C18_fit_then_evaluate",
    "C18_shifted_breaks_refuted"
   ],
   "note": "Uniform variant proved. The general variant is right only when the first break is zero (the search subtracts breaks[0], the evaluation does not)."
  },
  {
   "property": "C19",
   "status": "partial",
   "theorems": [
    "C19_periodic_partial",
    "C19_uniform_periodic_partial",
    "C19_solver_partial",
    "C19_uniform_kink_refuted",
    "C19_kink_refuted",
    "C19_three_points_refuted",
    "C19_solver_refuted",
    "C19_solver_refuted_regular"
   ],
   "note": "False: the work arrays overlap, so the first derivative jumps; three points access memory out of bounds; the last pivot is not tested."
  },
  {
   "property": "C20",
   "status": "proved",
   "theorems": [
    "C20_derivatives",
    "C20_uniform_derivatives"
   ],
   "note": "Exact arithmetic."
  },
  {
   "property": "C21",
   "status": "partial",
   "theorems": [
    "C21_iterations_bounded",
    "C21_run_returns",
    "C21_records_in_bounds_partial",
    "C21_histories",
    "C21_out_of_bounds_refuted",
    "C21_step_histories"
   ],
   "note": "Iteration bound and history contents proved; array writes are in bounds when Min_Iteration <= Max_Iteration (or no recording). Refuted otherwise: the loop continues past the arrays."
  },
  {
   "property": "C22",
   "status": "proved",
   "theorems": [
    "C22_returned_value"
   ],
   "note": "Every arithmetic, objective, direction rule and line search."
  },
  {
   "property": "C23",
   "status": "proved",
   "theorems": [
    "C23_armijo_success",
    "C23_armijo_success_computed",
    "C23_armijo_run"
   ],
   "note": "Search level over extended reals and, as computed, over every arithmetic; run level: the reference is the maximum of at most Num_pre_funs newest accepted values."
  },
  {
   "property": "C24",
   "status": "partial",
   "theorems": [
    "C24_window_partial",
    "C24_short_window_refuted"
   ],
   "note": "The window holds the newest accepted values, never more than Num_pre_funs; until it is full it holds one value fewer than stated."
  },
  {
   "property": "C25",
   "status": "partial",
   "theorems": [
    "C25_armijo_terminates",
    "C25_strong_wolfe_terminates",
    "C25_exact_terminates",
    "C25_wolfe_terminates_partial",
    "C25_wolfe_nan_refuted",
    "C25_armijo_infinite_step_refuted"
   ],
   "note": "Termination for every objective incl. NaN for Armijo (finite or NaN initial step), strong Wolfe and exact search; Wolfe only for finite objectives. Refuted: Wolfe on NaN objective, Armijo from an infinite initial step."
  },
  {
   "property": "C26",
   "status": "proved",
   "theorems": [
    "C26_strong_wolfe_success",
    "C26_strong_wolfe_computed"
   ],
   "note": "Extended reals; and as computed for every arithmetic."
  },
  {
   "property": "C27",
   "status": "partial",
   "theorems": [
    "C27_wolfe_success_partial",
    "C27_wolfe_decrease_refuted",
    "C27_wolfe_curvature_refuted"
   ],
   "note": "Both conditions hold except in two identified exits, each refuted by a binary64 witness."
  },
  {
   "property": "C28",
   "status": "partial",
   "theorems": [
    "C28_run_step_partial",
    "C28_exact_partial",
    "C28_wolfe_partial",
    "C28_armijo_min_step_refuted"
   ],
   "note": "Holds for successful searches and all exits but Armijo MINSTEPSIZE and strong Wolfe LSERROR."
  },
  {
   "property": "C29",
   "status": "proved",
   "theorems": [
    "C29_radius_bounds"
   ],
   "note": "Extended reals (exact arithmetic with NaN and infinities); every inner solver and objective; parameters as CheckParams demands and initial_Delta within [minimum_Delta, maximum_Delta]."
  },
  {
   "property": "C30",
   "status": "partial",
   "theorems": [
    "C30_step_partial",
    "C30_monotone_partial",
    "C30_newton_monotone",
    "C30_accuracy_refuted"
   ],
   "note": "Proved for Accuracy = 0 (the default); with Accuracy > 0 the third acceptance clause accepts increasing steps (refuted). C30_newton_monotone composes the loop with the truncated CG, so no model-decrease hypothesis is left."
  },
  {
   "property": "C31",
   "status": "partial",
   "theorems": [
    "C31_norm_partial",
    "C31_preconditioned_partial",
    "C31_min_inner_refuted"
   ],
   "note": "Exact arithmetic, when no pass is forced (Min_Inner_Iter = 0, the default) or the model has no critical point inside the region. A pass forced after the exact solution divides 0 by 0 (refuted in binary64)."
  },
  {
   "property": "C32",
   "status": "partial",
   "theorems": [
    "C32_model_partial",
    "C32_min_inner_refuted"
   ],
   "note": "Exact arithmetic, when no pass is forced (Min_Inner_Iter = 0, the default) or the model has no critical point inside the region. A pass forced after the exact solution divides 0 by 0."
  },
  {
   "property": "C33",
   "status": "partial",
   "theorems": [
    "C33_series_partial",
    "C33_entry_partial",
    "C33_rejected_refuted"
   ],
   "note": "The gradient series is right; the function series holds the rejected candidate's value after a rejection (refuted)."
  },
  {
   "property": "C34",
   "status": "proved",
   "theorems": [
    "C34_normal_stop"
   ],
   "note": "All criteria, time bound, user predicate."
  },
  {
   "property": "C35",
   "status": "partial",
   "theorems": [
    "C35_set_partial",
    "C35_order",
    "C35_truncated_refuted"
   ],
   "note": "All sixteen solver classes. On ManPG and AManPG the real parameters LS_ratio, LS_alpha and Minstepsize pass through an integer conversion: proved for whole numbers, and every value strictly between -1 and 1 becomes zero."
  },
  {
   "property": "C36",
   "status": "proved",
   "theorems": [
    "C36_memory",
    "C36_memory_restart"
   ],
   "note": "Any arithmetic and any vector operations; both memory modes."
  },
  {
   "property": "C37",
   "status": "proved",
   "theorems": [
    "C37_two_loops",
    "C37_recursion",
    "C37_positive"
   ],
   "note": "Equality with the recursive product in any arithmetic; BFGS formula, symmetry, positive definiteness in exact arithmetic with isometric transports."
  },
  {
   "property": "C38",
   "status": "proved",
   "theorems": [
    "C38_secant",
    "C38_formula",
    "C38_run",
    "C38_run_rw",
    "C38_secant_rw"
   ],
   "note": "Exact arithmetic, orthonormal coordinates. Whole runs of RBFGS, RWRBFGS and RBroydenFamily."
  },
  {
   "property": "C39",
   "status": "partial",
   "theorems": [
    "C39_broyden",
    "C39_broyden_update",
    "C39_sr1_partial",
    "C39_sr1_second_refuted",
    "C39_sr1_nan_refuted"
   ],
   "note": "Broyden family proved. SR1 fails at the second iteration and when the residual is zero."
  },
  {
   "property": "C40",
   "status": "partial",
   "theorems": [
    "C40_second_run_refuted",
    "C40_second_run_partial"
   ],
   "note": "False for LRBFGS: Currentlength and beginidx are kept while the arrays are replaced."
  },
  {
   "property": "C41",
   "status": "partial",
   "theorems": [
    "C41_descent_partial",
    "C41_nan_refuted"
   ],
   "note": "Proved in exact arithmetic for every rule, preconditioner, transport and line search. In IEEE arithmetic a quotient with zero denominator yields an infinite direction whose NaN slope passes the restart test."
  },
  {
   "property": "C42",
   "status": "partial",
   "theorems": [
    "C42_initial_step_partial",
    "C42_infinite_step_refuted",
    "C42_above_max_refuted"
   ],
   "note": "Positive, but may overflow to infinity or be NaN; not bounded by Maxstepsize."
  },
  {
   "property": "C43",
   "status": "proved",
   "theorems": [
    "C43_retries_bounded",
    "C43_accelerated_bounded",
    "C43_binary64",
    "C43_accelerated_binary64"
   ],
   "note": "Exact arithmetic for all tolerances and ratios, binary64 for the defaults; every problem, proximal map and stopping test; ManPG and AManPG."
  },
  {
   "property": "C44",
   "status": "partial",
   "theorems": [
    "C44_safeguard_partial",
    "C44_nan_refuted"
   ],
   "note": "Proved with infinities and NaN when the compared value is not NaN. A NaN at the accelerated point makes the comparison false and the NaN point is accepted."
  },
  {
   "property": "C45",
   "status": "partial",
   "theorems": [
    "C45_iterations_partial",
    "C45_passes_partial",
    "C45_forever_refuted"
   ],
   "note": "The iteration limit always holds. Termination is proved under stated conditions and refuted in general: a linear objective with a small gradient shrinks Eps and Del for ever."
  },
  {
   "property": "C46",
   "status": "partial",
   "theorems": [
    "C46_residual_partial",
    "C46_first_refuted"
   ],
   "note": "Proved when at least one pass was completed before. Converging in the first pass returns the unscaled preconditioned gradient instead of the CG iterate."
  },
  {
   "property": "C47",
   "status": "partial",
   "theorems": [
    "C47_scalar_times_vector",
    "C47_result_on_operand_partial",
    "C47_refuted"
   ],
   "note": "The alias result = first operand (with a different second operand), and for VectorLinearCombination any alias of the first operand, gives a wrong vector."
  },
  {
   "property": "C48",
   "status": "partial",
   "theorems": [
    "C48_locking_condition_transport_partial",
    "C48_refuted"
   ],
   "note": "Isometric base transport, nonzero vectors, derivative not opposite to the transported step; zero vectors and opposite directions give NaN, and a base transport that is not an isometry is not undone."
  },
  {
   "property": "C49",
   "status": "partial",
   "theorems": [
    "C49_locking_condition_operators_partial",
    "C49_sphere_operators",
    "C49_matvec",
    "C49_refuted"
   ],
   "note": "Proved for the locking-condition operators (Metric = dot product of coordinates) and for the sphere; refuted for transports by projection or Cayley transform and for the sphere inside a product."
  },
  {
   "property": "C50",
   "status": "partial",
   "theorems": [
    "C50_sphere_exponential_partial",
    "C50_refuted"
   ],
   "note": "Zero tangent vector gives NaN."
  },
  {
   "property": "C51",
   "status": "proved",
   "theorems": [
    "C51_parallel_translation"
   ],
   "note": ""
  },
  {
   "property": "C52",
   "status": "proved",
   "theorems": [
    "C52_stiefel_projection",
    "C52_grassmann_projection",
    "C52_gradients"
   ],
   "note": "Matrices over any real closed field, any sizes; also the gradient conversions of both metrics."
  },
  {
   "property": "C53",
   "status": "proved",
   "theorems": [
    "C53_stiefel_coordinates",
    "C53_grassmann_coordinates",
    "C53_normal_coordinates"
   ],
   "note": "Stiefel and Grassmann, tangent and normal vectors, with the Householder factorisation of x or of the matrix the qf retraction made x from; LAPACK's result is assumed to be a factorisation. SPD is not modelled."
  },
  {
   "property": "C54",
   "status": "partial",
   "theorems": [
    "C54_distance_partial",
    "C54_distance_refuted",
    "C54_parallel_translation_refuted"
   ],
   "note": "The Euclidean distance is a metric. The affine-invariant distance omits the logarithm: Dist(x,x) is sqrt(n). Parallel translation multiplies by the factor 0 and always returns the zero matrix. Norm-preserving transport is available by parallelization (C91)."
  },
  {
   "property": "C55",
   "status": "partial",
   "theorems": [
    "C55_metric_sum",
    "C55_dist",
    "C55_projection",
    "C55_transports",
    "C55_coordinates",
    "C55_retraction_partial",
    "C55_retraction_extrinsic",
    "C55_tran_partial",
    "C55_settings_refuted",
    "C55_metric_refuted",
    "C55_alias_refuted",
    "C55_tran_refuted"
   ],
   "note": "Componentwise action proved for all component lists. The settings of the components do change: an extrinsic Retraction or InvRetraction leaves every component intrinsic, after which Metric gives other numbers. TranHInvTran into another matrix does not read its argument Hx. Retraction into the vector passed loses the vector."
  },
  {
   "property": "C56",
   "status": "partial",
   "theorems": [
    "C56_rbfgs_partial",
    "C56_rwrbfgs_partial",
    "C56_rbfgssub",
    "C56_rbfgs_refuted",
    "C56_rwrbfgs_refuted"
   ],
   "note": "RBFGSSub never changes the user's matrix. RBFGS and RBroydenFamily do not when the first iteration rescales or the transport writes; RWRBFGS and RTRSR1 do not when it rescales or does not update. Otherwise the first rank-one update overwrites the user's matrix, because HaddRankone writes through the raw pointer of shared storage."
  },
  {
   "property": "C57",
   "status": "proved",
   "theorems": [
    "C57_entries",
    "C57_storage",
    "C57_mean_value",
    "C57_short_result"
   ],
   "note": "C57_short_result records that a result shorter than the point is written out of bounds."
  },
  {
   "property": "C58",
   "status": "partial",
   "theorems": [
    "C58_hessian_conversion_partial",
    "C58_hessian_conversion_refuted",
    "C58_grassmann_hessian"
   ],
   "note": "The canonical conversion subtracts eta G^T x with coefficient 1 where 1/2 is needed, so for p = 1 it differs from the Euclidean one although the metrics agree. The Euclidean and Grassmann conversions are proved to be the projected derivative of the gradient, and self-adjoint."
  },
  {
   "property": "C59",
   "status": "partial",
   "theorems": [
    "C59_gradient_partial",
    "C59_stale_gradient_refuted"
   ],
   "note": "Holds for Armijo, exact, user search and successful strong Wolfe; Wolfe can return a stale gradient."
  },
  {
   "property": "C60",
   "status": "proved",
   "theorems": [
    "C60_returned"
   ],
   "note": "Any arithmetic, any environment."
  },
  {
   "property": "C61",
   "status": "partial",
   "theorems": [
    "C61_returns",
    "C61_in_bounds_partial",
    "C61_out_of_bounds_refuted"
   ],
   "note": "Termination for every parameter setting; in bounds unless Min_Iteration > Max_Iteration with recording on (refuted)."
  },
  {
   "property": "C62",
   "status": "proved",
   "theorems": [
    "C62_residual"
   ],
   "note": "Exact arithmetic; any Min_Inner_Iter and any gradient."
  },
  {
   "property": "C63",
   "status": "proved",
   "theorems": [
    "C63_slopes_succeed",
    "C63_uniform_slopes_succeed"
   ],
   "note": "Exact arithmetic."
  },
  {
   "property": "C64",
   "status": "partial",
   "theorems": [
    "C64_dot_partial",
    "C64_gather_partial",
    "C64_gather_zero_partial",
    "C64_scatter_partial",
    "C64_axpy_refuted"
   ],
   "note": "All but axpy, whose loop body is commented out. Gathering with zeroing for distinct indices."
  },
  {
   "property": "C65",
   "status": "partial",
   "theorems": [
    "C65_structured_partial",
    "C65_product_many_partial",
    "C65_hermitian_diagonal_refuted",
    "C65_hermitian_product_refuted",
    "C65_unit_refuted"
   ],
   "note": "Triangular, symmetric, unit diagonal proved when something was inserted. Hermitian matrices and empty unit-diagonal ones are wrong."
  },
  {
   "property": "C66",
   "status": "proved",
   "theorems": [
    "C66_newton_descent"
   ],
   "note": "Exact arithmetic; any self-adjoint Hessian, positive preconditioner, any inner iteration limits."
  },
  {
   "property": "C67",
   "status": "proved",
   "theorems": [
    "C67_linear_cg"
   ],
   "note": "Exact arithmetic, identity transport, no preconditioner."
  },
  {
   "property": "C68",
   "status": "partial",
   "theorems": [
    "C68_values_partial",
    "C68_increase_refuted"
   ],
   "note": "Holds when the slope used by the Armijo test is nonpositive. For composite objectives it can be positive and an increase is accepted."
  },
  {
   "property": "C69",
   "status": "partial",
   "theorems": [
    "C69_direction_length_partial",
    "C69_uninitialised_refuted"
   ],
   "note": "GetSearchDir returns before assigning ndir1 when the shortest vector is below Del; in the first pass the member has never been assigned."
  },
  {
   "property": "C70",
   "status": "partial",
   "theorems": [
    "C70_wolfe_partial",
    "C70_nan_refuted"
   ],
   "note": "Exact arithmetic. With NaN values the decrease test is false and the step is reported as a success."
  },
  {
   "property": "C71",
   "status": "partial",
   "theorems": [
    "C71_paramset",
    "C71_outside",
    "C71_hhr_alone",
    "C71_unknown",
    "C71_both_partial",
    "C71_both_refuted"
   ],
   "note": "Each set installs its documented settings; HasHHR alone works. Given together on the Stiefel classes and the sphere, the set switches HasHHR off again."
  },
  {
   "property": "C72",
   "status": "partial",
   "theorems": [
    "C72_values_partial",
    "C72_write_parent_first",
    "C72_shared_refuted"
   ],
   "note": "Refinement to independent values for every allowed step. Writing a component while the parent's storage is shared changes the other owners too."
  },
  {
   "property": "C73",
   "status": "proved",
   "theorems": [
    "C73_add_sub",
    "C73_scalars",
    "C73_divide_by",
    "C73_divide_into",
    "C73_divide",
    "C73_real"
   ],
   "note": "Over the reals."
  },
  {
   "property": "C74",
   "status": "proved",
   "theorems": [
    "C74_identity",
    "C74_scaled_identity",
    "C74_diagonal_left",
    "C74_diagonal_transpose",
    "C74_norms"
   ],
   "note": "ScaledIdOPE for real matrices (it silently does nothing for a complex n by n matrix)."
  },
  {
   "property": "C75",
   "status": "partial",
   "theorems": [
    "C75_from_real_partial",
    "C75_real_part_refuted"
   ],
   "note": "GetRealInComplex packs the real parts into the first half of a result still flagged complex and leaves the rest unwritten."
  },
  {
   "property": "C76",
   "status": "partial",
   "theorems": [
    "C76_refuted"
   ],
   "note": "The operators take both operands by value; the left operand of the caller never changes."
  },
  {
   "property": "C77",
   "status": "proved",
   "theorems": [
    "C77_qf_retraction",
    "C77_polar_retraction",
    "C77_cayley_retraction"
   ],
   "note": "LAPACK's QR and SVD are arguments assumed to return decompositions of the matrices x + t eta; extrinsic representation."
  },
  {
   "property": "C78",
   "status": "proved",
   "theorems": [
    "C78_polar_retraction_nearest"
   ],
   "note": ""
  },
  {
   "property": "C79",
   "status": "proved",
   "theorems": [
    "C79_diff_qf_retraction",
    "C79_diff_polar_retraction",
    "C79_diff_cayley_retraction",
    "C79_diff_polar_velocity"
   ],
   "note": "qf and polar: the unique solution of the linearised equation; Cayley: squared error at most C t^4."
  },
  {
   "property": "C80",
   "status": "proved",
   "theorems": [
    "C80_qf_cotangent",
    "C80_grassmann_cotangent"
   ],
   "note": ""
  },
  {
   "property": "C81",
   "status": "proved",
   "theorems": [
    "C81_cayley_transport"
   ],
   "note": "Extrinsic representation (in the intrinsic one the code reads the wrong array, DESIGN.md)."
  },
  {
   "property": "C82",
   "status": "proved",
   "theorems": [
    "C82_inverse_polar",
    "C82_inverse_polar_right"
   ],
   "note": "The Sylvester solver is an argument assumed to return a solution."
  },
  {
   "property": "C83",
   "status": "partial",
   "theorems": [
    "C83_grassmann_derivative_partial",
    "C83_grassmann_derivative_refuted"
   ],
   "note": "Refuted for the extrinsic representation; in intrinsic coordinates (the default) the value represents the horizontal part of the derivative."
  },
  {
   "property": "C84",
   "status": "proved",
   "theorems": [
    "C84_exponential_derivative"
   ],
   "note": ""
  },
  {
   "property": "C85",
   "status": "proved",
   "theorems": [
    "C85_sphere_locking_condition"
   ],
   "note": ""
  },
  {
   "property": "C86",
   "status": "proved",
   "theorems": [
    "C86_metric",
    "C86_projection"
   ],
   "note": ""
  },
  {
   "property": "C87",
   "status": "partial",
   "theorems": [
    "C87_gradient_partial",
    "C87_gradient_refuted",
    "C87_hessian"
   ],
   "note": "Proved for symmetric Euclidean gradients. The code does not symmetrise: for others the result is not a tangent vector and its coordinates represent a different derivative."
  },
  {
   "property": "C88",
   "status": "proved",
   "theorems": [
    "C88_coordinates_affine",
    "C88_coordinates_euclidean"
   ],
   "note": ""
  },
  {
   "property": "C89",
   "status": "proved",
   "theorems": [
    "C89_second_order_retraction"
   ],
   "note": "The Cholesky factor is as LAPACK documents it (is_chol)."
  },
  {
   "property": "C90",
   "status": "proved",
   "theorems": [
    "C90_exponential_retraction"
   ],
   "note": "The eigenvalue routine and the scalar exponential are oracles with documented properties; the example instantiates them over Coq's reals with exp."
  },
  {
   "property": "C91",
   "status": "proved",
   "theorems": [
    "C91_parallelization_transport"
   ],
   "note": ""
  },
  {
   "property": "C92",
   "status": "proved",
   "theorems": [
    "C92_dimensions"
   ],
   "note": ""
  },
  {
   "property": "C93",
   "status": "proved",
   "theorems": [
    "C93_symmetric",
    "C93_isometric"
   ],
   "note": ""
  },
  {
   "property": "C94",
   "status": "partial",
   "theorems": [
    "C94_mean_value_partial",
    "C94_mixed_refuted",
    "C94_zero_refuted"
   ],
   "note": "Proved when the same gradient routine is used at both points and the direction is not zero. With numerical derivatives on and EucGrad overridden, the difference mixes the user's gradient with the numerical one; on the zero direction the result is NaN."
  },
  {
   "property": "C95",
   "status": "proved",
   "theorems": [
    "C95_gradient",
    "C95_hessian"
   ],
   "note": ""
  },
  {
   "property": "C96",
   "status": "proved",
   "theorems": [
    "C96_quadratic",
    "C96_quadratic_needs_symmetry",
    "C96_brockett",
    "C96_rayleigh",
    "C96_product_brockett",
    "C96_weighted_approximation",
    "C96_lyapunov",
    "C96_matrix_completion",
    "C96_convex_hull",
    "C96_tangent_rayleigh"
   ],
   "note": "Exact arithmetic. The header of GrassRQ documents tr(X^T B X); f returns half of it, and the theorem says so. C96_quadratic_needs_symmetry shows that the symmetry assumption is necessary."
  },
  {
   "property": "C97",
   "status": "proved",
   "theorems": [
    "C97_sparse_approximation",
    "C97_sparse_pca"
   ],
   "note": "The singular value decomposition in StieSPCA's constructor is assumed correct."
  },
  {
   "property": "C98",
   "status": "partial",
   "theorems": [
    "C98_sparsest_gradient_partial",
    "C98_sparsest_hessian_refuted"
   ],
   "note": "Value, subgradient and gradient hold. EucHessianEta returns eta where the derivative of EucGrad is zero: wrong at every point with no vanishing entry, for every nonzero direction."
  },
  {
   "property": "C99",
   "status": "partial",
   "theorems": [
    "C99_prox_minimises_partial",
    "C99_prox_nonexpansive_partial",
    "C99_tail_unwritten",
    "C99_prox_function_refuted"
   ],
   "note": "Proved when the number of weights divides the number of entries. Otherwise the tail of the result is never written."
  }
 ]
}