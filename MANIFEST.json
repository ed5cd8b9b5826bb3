{
 "claims": [
  {
   "property": "C01",
   "status": "proved",
   "theorems": [
    "C01_multiindex_is_dense_vector",
    "C01_set_return_value",
    "C01_constant_constructor",
    "C01_empty_constant_max_refuted"
   ],
   "note": "Full statement for every dense start vector and every history of in-range Set calls; return value of Set and the constant constructor also covered. The refuted theorem concerns only the zero-length constructor with non-zero value, outside the property."
  },
  {
   "property": "C02",
   "status": "proved",
   "theorems": [
    "C02_order_is_graded_lexicographic",
    "C02_equality_is_dense_equality",
    "C02_strict_total_order",
    "C02_derived_comparisons"
   ],
   "note": "Over all objects reachable by construction and in-range Set."
  },
  {
   "property": "C03",
   "status": "partial",
   "theorems": [
    "C03_out_of_range_rejected_partial",
    "C03_boundary_index_refuted",
    "C03_rejection_refuted"
   ],
   "note": "Indices above Length() throw; the index equal to Length() is accepted (refuted for every object)."
  },
  {
   "property": "C04",
   "status": "proved",
   "theorems": [
    "C04_limiters_accept_exactly",
    "C04_dimension_limiter_throws_refuted",
    "C04_standard_limiters_downward_closed",
    "C04_anisotropic_constructor_guards",
    "C04_xor_downward_closed_refuted",
    "C04_any_bounded"
   ],
   "note": "Acceptance for all nestings, downward closure for all monotone nestings; side condition: a Dimension limiter whose first dimension exceeds Length()+1 throws (shown)."
  },
  {
   "property": "C05",
   "status": "proved",
   "theorems": [
    "C05_forward_neighbors",
    "C05_backward_neighbors",
    "C05_is_forward_is_backward"
   ],
   "note": ""
  },
  {
   "property": "C06",
   "status": "proved",
   "theorems": [
    "C06_total_order_exact",
    "C06_total_order_count",
    "C06_zero_length_rejected"
   ],
   "note": "All dimensions, orders and limiters; multi-indices represented by their dense vectors (justified by C01, C02, C05)."
  },
  {
   "property": "C07",
   "status": "proved",
   "theorems": [
    "C07_tensor_product_exact",
    "C07_tensor_product_count"
   ],
   "note": "All dimensions, orders and limiters."
  },
  {
   "property": "C08",
   "status": "proved",
   "theorems": [
    "C08_consistent_after_any_history",
    "C08_consistent_with_limiter_changes",
    "C08_indices_stable"
   ],
   "note": "For every history without limiter replacement (forced activations, Union and assignment included) and, separately, for every history with limiter replacements but without forced activations. The forced calls can have undefined behaviour instead of returning (C59)."
  },
  {
   "property": "C09",
   "status": "partial",
   "theorems": [
    "C09_members_accepted_partial",
    "C09_after_limiter_change_refuted"
   ],
   "note": "Holds for every history without SetLimiter; refuted after SetLimiter."
  },
  {
   "property": "C10",
   "status": "proved",
   "theorems": [
    "C10_admissible_growth_downward_closed"
   ],
   "note": "All starts, all histories of Expand, Activate and forced calls, all downward closed limiters."
  },
  {
   "property": "C11",
   "status": "partial",
   "theorems": [
    "C11_margin",
    "C11_reduced_margin_partial",
    "C11_frontier",
    "C11_strict_frontier",
    "C11_reduced_margin_after_union_refuted"
   ],
   "note": "Margin, Frontier, StrictFrontier for every reachable set; ReducedMargin for every set reached by admissible growth, and refuted when sets are merged with Union."
  },
  {
   "property": "C12",
   "status": "partial",
   "theorems": [
    "C12_expand_reports_new_indices_partial",
    "C12_expand_one_exact",
    "C12_expand_duplicates_refuted"
   ],
   "note": "Expand() reports exactly the new indices as a set (proved), but with duplicates (refuted). Expand(i) reports each once (proved)."
  },
  {
   "property": "C13",
   "status": "proved",
   "theorems": [
    "C13_fix_compressed",
    "C13_fix_dense",
    "C13_fix_dense_length0_refuted",
    "C13_index_out_of_range"
   ],
   "note": "Both storage forms after any history of calls, MaxDegrees and MultiToIndex included. Length 0 with the dense form divides by zero (refuted theorem, outside the property since a set of length 0 has no input dimension); an index past the end is not checked by the code."
  },
  {
   "property": "C14",
   "status": "partial",
   "theorems": [
    "C14_dense_absent",
    "C14_compressed_absent_refuted",
    "C14_search_partial"
   ],
   "note": "Dense form proved; the compressed search always reads past the offset array when the multi-index is absent (refuted for every set and every absent multi-index); a search that returns is right (partial)."
  },
  {
   "property": "C15",
   "status": "proved",
   "theorems": [
    "C15_total_order_exact",
    "C15_allocation_exact",
    "C15_agrees_with_fix",
    "C15_dimension0_refuted"
   ],
   "note": "All positive dimensions and all orders; agreement with CreateTotalOrder+Fix and exact allocation included. Dimension 0 wraps around (refuted theorem, outside the property)."
  },
  {
   "property": "C16",
   "status": "partial",
   "theorems": [
    "C16_set_limiter_partial",
    "C16_throw_changes_set_refuted",
    "C16_reduced_margin_refuted"
   ],
   "note": "Throws iff an active member is rejected, active members unchanged, Margin afterwards exact. Refuted: a throwing call leaves the new limiter installed; ReducedMargin afterwards lists rejected multi-indices."
  },
  {
   "property": "C17",
   "status": "proved",
   "theorems": [
    "C17_evaluate_recurrence",
    "C17_arrays_agree",
    "C17_hermite"
   ],
   "note": "Every mixer (three-term family), both modes, every degree and point, arbitrary previous buffer contents. Division is the real division by the number the code computes; C19 says when it is not the true norm."
  },
  {
   "property": "C18",
   "status": "partial",
   "theorems": [
    "C18_arrays_true_derivatives",
    "C18_single_degree_partial",
    "C18_degree1_normalised_refuted"
   ],
   "note": "Array routines right for every degree and mode; SecondDerivative right; Derivative(1,x) of a normalised basis refuted at every x for both families."
  },
  {
   "property": "C19",
   "status": "partial",
   "theorems": [
    "C19_true_norm_partial",
    "C19_norm_from_13_refuted",
    "C19_norm_from_34_refuted",
    "C19_no_division_by_zero_partial"
   ],
   "note": "True norm for degree <= 12; refuted for every degree >= 13 (too small) and >= 34 (division by zero)."
  },
  {
   "property": "C20",
   "status": "partial",
   "theorems": [
    "C20_arrays",
    "C20_single_index_partial",
    "C20_evaluate_large_index_refuted",
    "C20_second_derivative_refuted"
   ],
   "note": "Array routines proved for every index. Single-index Evaluate/Derivative proved to index 14; Evaluate refuted for 15..35 and SecondDerivative for 2..37. From index 36 on the code raises 0 to the power -1/2 (infinity), which the model does not represent as a number."
  },
  {
   "property": "C21",
   "status": "proved",
   "theorems": [
    "C21_derivative_arrays",
    "C21_all_routines",
    "C21_normalised_values_disagree_refuted"
   ],
   "note": "For every base basis whose routines return true derivatives (the stated quantifier). For the library's normalised polynomials that assumption fails at degree 1, and the disagreement that follows is shown by the refuted theorem; the derivative arrays are right there too."
  },
  {
   "property": "C22",
   "status": "proved",
   "theorems": [
    "C22_softplus",
    "C22_softplus_formula",
    "C22_exp"
   ],
   "note": ""
  },
  {
   "property": "C23",
   "status": "proved",
   "theorems": [
    "C23_logistic"
   ],
   "note": ""
  },
  {
   "property": "C24",
   "status": "proved",
   "theorems": [
    "C24_segments",
    "C24_evaluate",
    "C24_full_product",
    "C24_vector_valued"
   ],
   "note": "Every compressed fixed set reached by any history, arbitrary initial cache contents, any one-dimensional basis whose fill routines meet their contract (C21_bases shows the modelled ones do). The vector-valued wrapper is C24_vector_valued."
  },
  {
   "property": "C25",
   "status": "proved",
   "theorems": [
    "C25_diagonal",
    "C25_diagonal2",
    "C25_coeff",
    "C25_input",
    "C25_mixed_input",
    "C25_mixed_coeff",
    "C25_mixed_coeff2",
    "C25_vector_gradient",
    "C25_vector_coeff_grad"
   ],
   "note": "All derivative kinds of the worker against Coquelicot partial derivatives, plus the vector-valued Gradient and CoeffGrad. Second-derivative statements need the basis twice differentiable at the point only, so linearized bases qualify away from their bounds."
  },
  {
   "property": "C26",
   "status": "proved",
   "theorems": [
    "C26_clenshaw_curtis_rule",
    "C26_integrate_exact"
   ],
   "note": "Every n below 2^16; degree < n exact on [-1,1] and through Integrate on every [lb,ub] of width at least 15 epsilon."
  },
  {
   "property": "C27",
   "status": "proved",
   "theorems": [
    "C27_adaptive_simpson",
    "C27_tree_unique",
    "C27_adaptive_simpson_exact",
    "C27_min_sub_overflow",
    "C27_max_sub_shift"
   ],
   "note": "Workspace of exactly WorkspaceSize() entries, all metrics. Also: exact for cubics, tree unique, and undefined behaviour shown for minSub>=maxSub and for maxSub>32 with tolerances that cannot be met."
  },
  {
   "property": "C28",
   "status": "proved",
   "theorems": [
    "C28_adaptive_clenshaw_curtis",
    "C28_adaptive_clenshaw_curtis_exact",
    "C28_level0_refuted"
   ],
   "note": "Level >= 1 (smaller levels fail the constructor's assertion). Also exact for degree up to 2^(level+1)."
  },
  {
   "property": "C29",
   "status": "partial",
   "theorems": [
    "C29_clenshaw_curtis_refuted",
    "C29_clenshaw_curtis_partial",
    "C29_adaptive_simpson_partial",
    "C29_adaptive_clenshaw_curtis_partial"
   ],
   "note": "False of ClenshawCurtisQuadrature (refuted theorem); holds for both adaptive rules; the values of ClenshawCurtisQuadrature on every interval are characterised."
  },
  {
   "property": "C30",
   "status": "proved",
   "theorems": [
    "C30_find_bracket",
    "C30_reaches_target"
   ],
   "note": "For every function (monotonicity is not needed): codes, bracket on success, meaning of both failures, success when nowhere flat and within reach."
  },
  {
   "property": "C31",
   "status": "proved",
   "theorems": [
    "C31_bracket_kept",
    "C31_iterations",
    "C31_inverse",
    "C31_root_unique",
    "C31_info_codes"
   ],
   "note": "Continuous nondecreasing functions; xtol at least 2^-1074; iteration bound ceil(log2(width/(2 xtol)))+3. Also shown: info=-1 is never reported."
  },
  {
   "property": "C32",
   "status": "proved",
   "theorems": [
    "C32_integrand"
   ],
   "note": "All five derivative types of MonotoneIntegrand that the component uses, after any earlier calls, with arbitrary initial cache, workspace and output. MixedInput is only used through the expansion worker."
  },
  {
   "property": "C33",
   "status": "partial",
   "theorems": [
    "C33_exact_partial",
    "C33_exact_rule_partial",
    "C33_rules_exact_on_constants",
    "C33_affine_partial",
    "C33_refuted"
   ],
   "note": "The exact map is strictly increasing, and so is Evaluate whenever the rule integrates the integrand exactly; the affine case holds for all three rules. C33_refuted: for every number of Clenshaw-Curtis points and both positive functions some cubic component decreases. For adaptive Simpson C72_increasing_refuted."
  },
  {
   "property": "C34",
   "status": "proved",
   "theorems": [
    "C34_continuous",
    "C34_discrete"
   ],
   "note": "Continuous mode: positive derivative and finite log determinant, for every quadrature rule. Discrete mode (fixed rule): the log determinant is the logarithm of the derivative of the discretised map when that is positive and -inf otherwise."
  },
  {
   "property": "C35",
   "status": "partial",
   "theorems": [
    "C35_evaluate",
    "C35_discrete_derivative_partial",
    "C35_coeff_jacobian_partial",
    "C35_input_jacobian_partial",
    "C35_nugget_refuted"
   ],
   "note": "Holds when the nugget is zero: the three routines differentiate T(x)+nugget*x_d while Evaluate returns T(x). C35_nugget_refuted: with a non-zero nugget the reported x_d derivative is never that of Evaluate. Fixed rules; for adaptive rules see C72."
  },
  {
   "property": "C36",
   "status": "partial",
   "theorems": [
    "C36_inverse_partial",
    "C36_solves_with_nugget",
    "C36_round_trip_partial",
    "C36_nugget_refuted"
   ],
   "note": "Holds for zero nugget and any quadrature rule for which Evaluate is continuous and increasing; with a nugget Inverse solves T(x)+nugget*x_d=y (C36_solves_with_nugget) and C36_nugget_refuted shows the round trip can miss by any distance."
  },
  {
   "property": "C37",
   "status": "proved",
   "theorems": [
    "C37_constructor",
    "C37_evaluate",
    "C37_blocks",
    "C37_logdet"
   ],
   "note": "Constructor acceptance, block outputs, independence of later inputs, and log determinant for every accepted component list. An empty list is undefined behaviour (read of the last element)."
  },
  {
   "property": "C38",
   "status": "proved",
   "theorems": [
    "C38_inverse",
    "C38_residual"
   ],
   "note": "Two-sided inverse for every list of exactly invertible components; C38_residual adds the residual bound when components invert up to a tolerance. The model writes the shared buffer exactly as InverseInplace does."
  },
  {
   "property": "C39",
   "status": "partial",
   "theorems": [
    "C39_gradients",
    "C39_derivatives",
    "C39_affine_refuted"
   ],
   "note": "C39_gradients is the chain-rule identity for components whose four gradient routines are correct and C39_derivatives says these are the true derivatives. C39_affine_refuted shows LogDeterminantInputGrad is wrong with an AffineMap component: it adds the previous component's gradient twice."
  },
  {
   "property": "C40",
   "status": "proved",
   "theorems": [
    "C40_constructor",
    "C40_evaluate",
    "C40_inverse",
    "C40_residual"
   ],
   "note": "Composition, two-sided inverse, residual propagation and log determinant for every accepted list of layers."
  },
  {
   "property": "C41",
   "status": "partial",
   "theorems": [
    "C41_checkpoints_partial",
    "C41_overflow_refuted"
   ],
   "note": "C41_checkpoints_partial covers every query sequence, up to 2^15 layers and every budget below 2^31. C41_overflow_refuted shows the 32-bit binomial computation overflows with budget 46343 and 49999 layers, so the unbounded statement is false of the code."
  },
  {
   "property": "C42",
   "status": "partial",
   "theorems": [
    "C42_gradients_partial",
    "C42_budget_irrelevant",
    "C42_derivatives",
    "C42_affine_refuted",
    "C42_identity_refuted"
   ],
   "note": "C42_gradients_partial and C42_budget_irrelevant cover layers whose routines are correct, up to 2^15 layers; C42_derivatives says the results are the true derivatives. C42_affine_refuted (stale buffer with an affine layer) and C42_identity_refuted (debug assertion with an identity layer) show the rest is false of the code."
  },
  {
   "property": "C43",
   "status": "partial",
   "theorems": [
    "C43_layouts_partial",
    "C43_single_point_refuted",
    "C43_identity",
    "C43_affine",
    "C43_offset",
    "C43_summarised",
    "C43_summarised_gradients"
   ],
   "note": "Identity, affine (both constructors and the offset-only one) and summarised maps. The LU factorisation is a parameter that must satisfy lu_correct; SummarizedMap assumes the summary function and inner component meet their own contracts. Strided outputs: C43_layouts_partial; Inverse of one point aborts for every affine map with a matrix of two or more rows (C43_single_point_refuted)."
  },
  {
   "property": "C44",
   "status": "partial",
   "theorems": [
    "C44_exact_size_partial",
    "C44_no_coefficients",
    "C44_only_short_first_set",
    "C44_short_vector_refuted",
    "C44_empty_map_refuted"
   ],
   "note": "Every history, any build: an evaluation that is not refused has exactly numCoeffs entries, for the map and each component it reads (maps with at least one coefficient); the only call that can abort or be undefined is a first SetCoeffs of a container with too few entries. Refuted: that case (undefined in release builds), and a map without coefficients keeping a non-empty vector."
  },
  {
   "property": "C45",
   "status": "partial",
   "theorems": [
    "C45_tree_partial",
    "C45_moved",
    "C45_shared_refuted",
    "C45_twice_refuted",
    "C45_rewrapped_refuted"
   ],
   "note": "Proved for every history in which components are not shared, repeated, or wrapped under a container that has coefficients; refuted with witnesses for each of these three. moveCoeffs constructors proved for all histories."
  },
  {
   "property": "C46",
   "status": "partial",
   "theorems": [
    "C46_set",
    "C46_set_succeeds",
    "C46_callers_arrays_partial",
    "C46_wrapped_refuted",
    "C46_component_refuted"
   ],
   "note": "Proved for all histories: new Coeffs(), no entry outside the map's own storage written, success for right-sized vectors elsewhere. Isolation of the caller's arrays proved for histories that never wrap them; refuted after WrapCoeffs and for components of a container."
  },
  {
   "property": "C47",
   "status": "proved",
   "theorems": [
    "C47_single_entry",
    "C47_coordinates",
    "C47_rejects"
   ],
   "note": "For every dim, active index, debug flag and component: the map is built and each routine computes what single_pmap says; other arguments are rejected with an exception. The loss of the component's coefficients (closing SetCoeffs) is outside this model and recorded in DESIGN.md."
  },
  {
   "property": "C48",
   "status": "proved",
   "theorems": [
    "C48_pullback",
    "C48_degenerate",
    "C48_pushforward",
    "C48_mutual_inverse",
    "C48_composition",
    "C48_rejects",
    "C48_samplers"
   ],
   "note": "For every map with the stated contracts (evaluation, log determinant, inverse up to tol), every density of the contract and every point. C48_mutual_inverse needs an exact inverse. Samplers: C48_samplers. Where the map is degenerate the pullback is minus infinity (C48_degenerate)."
  },
  {
   "property": "C49",
   "status": "partial",
   "theorems": [
    "C49_values",
    "C49_derivatives",
    "C49_eigen_overload_refuted",
    "C49_built_map"
   ],
   "note": "Values and derivatives proved for the Kokkos interface, and from start to end for maps made by CreateTriangular (C49_built_map). The Eigen overload of LogDensityCoeffGrad returns the input gradient: C49_eigen_overload_refuted."
  },
  {
   "property": "C50",
   "status": "partial",
   "theorems": [
    "C50_logdensity_partial",
    "C50_logdensity",
    "C50_unique",
    "C50_score_is_gradient",
    "C50_gradient_partial",
    "C50_gradient_identity",
    "C50_dense_gradient_refuted",
    "C50_strided_output_refuted"
   ],
   "note": "Log density proved for all four constructors, any dimension, any correct Cholesky (one is constructed and proved), any reduction schedule. LogDensityInputGrad works for identity covariance; with a dense covariance only column-major outputs work (C50_gradient_partial) and the allocating call aborts (C50_dense_gradient_refuted). Outputs with stride other than 1 are filled wrongly (C50_strided_output_refuted)."
  },
  {
   "property": "C51",
   "status": "partial",
   "theorems": [
    "C51_objective",
    "C51_errors",
    "C51_gradient_partial",
    "C51_calls",
    "C51_derivative",
    "C51_order",
    "C51_strided_refuted",
    "C51_rejects",
    "C51_gaussian",
    "C51_built_map"
   ],
   "note": "Proved: objective, gradient and both together for every map and density that meet their contracts, every sample set, schedule and order; the gradient is the derivative for maps with true derivatives, among them the maps CreateTriangular makes (C51_built_map). Partial because gradient arrays with a stride other than 1 are written at wrong places (C51_strided_refuted)."
  },
  {
   "property": "C52",
   "status": "partial",
   "theorems": [
    "C52_terminates",
    "C52_best_partial",
    "C52_initial_sets_refuted"
   ],
   "note": "For every objective, optimiser and factory (an arbitrary world): the loop ends (C52_terminates); a returned call has a history of iterations, each adding one coefficient, never beyond max(initial size, maxSize); if an iteration beats the initial test error the returned sets are those of the iteration with the smallest test error, and the map is trained on them (C52_best_partial). Missing because the code does otherwise: when no iteration improves, the initial sets are replaced by constant-only sets (C52_initial_sets_refuted)."
  },
  {
   "property": "C53",
   "status": "partial",
   "theorems": [
    "C53_adds_largest",
    "C53_progress_partial",
    "C53_no_candidate_refuted",
    "C53_zero_gradient_refuted",
    "C53_frontier_coefficients_partial",
    "C53_stray_refuted"
   ],
   "note": "Each completed iteration adds an allowed candidate with non-zero gradient, largest in magnitude over all allowed candidates of all components (C53_adds_largest), and an iteration always completes if every component has a candidate and some allowed candidate has a non-zero gradient (C53_progress_partial). The gradient is taken at the trained coefficients padded with zeros when Expand reports no index twice (C53_frontier_coefficients_partial). Refuted otherwise: zero gradients, a component without candidate, and duplicate reports of Expand lead to undefined behaviour (C53_zero_gradient_refuted, C53_no_candidate_refuted, C53_stray_refuted)."
  },
  {
   "property": "C54",
   "status": "partial",
   "theorems": [
    "C54_vector",
    "C54_matrix_partial",
    "C54_large_matrix_refuted",
    "C54_strided_matrix_refuted",
    "C54_options",
    "C54_fixed_set",
    "C54_quadrature",
    "C54_component",
    "C54_shared_pointers",
    "C54_triangular_partial",
    "C54_triangular_refuted"
   ],
   "note": "Vectors, options, fixed sets, quadrature rules, monotone components and shared component pointers round-trip with any following bytes. Matrices only when packed and below 2^32 elements (others refuted); triangular maps refuted: the flag is misread and bytes stay unread."
  },
  {
   "property": "C55",
   "status": "partial",
   "theorems": [
    "C55_every_schedule",
    "C55_completes",
    "C55_columns",
    "C55_calls",
    "C55_expansion",
    "C55_component",
    "C55_component_calls",
    "C55_empty_batch_refuted"
   ],
   "note": "C55_every_schedule: for every interleaving of the work items of a loop (team policy or range policy, any number of threads), steps are bounded, nothing fails or races, and column j ends as what the routine gives for point j; C55_completes: every schedule can be completed; C55_columns: a column depends only on its point, coefficients, sensitivities and old contents; C55_calls: calls of several loops; C55_expansion and C55_component: the routines of both classes give results independent of scratch contents, with the scratch sizes the code requests; C55_component_calls: Evaluate, Gradient, CoeffGrad and the continuous log-determinant gradients. Refuted for an empty batch (undefined conversion of 0/0). Missing: the single memory accesses of each routine are not derived from the source (any program confined to its column that computes the routine alone is allowed), and weak memory is not modelled."
  },
  {
   "property": "C56",
   "status": "partial",
   "theorems": [
    "C56_evaluate",
    "C56_gradient_refuted",
    "C56_gradient_exchanged_refuted",
    "C56_exchanged_call_partial"
   ],
   "note": "Refuted for the documented argument order; proved for the exchanged order the unit tests use."
  },
  {
   "property": "C57",
   "status": "partial",
   "theorems": [
    "C57_factor",
    "C57_product_partial",
    "C57_release_refuted",
    "C57_split_refuted"
   ],
   "note": "Proved (checked and unchecked builds): when both factors have as many coefficients as inputs, the tensor product evaluates to the product and its derivatives in the last input and in the coefficients are the true ones, for arbitrary factors meeting the stated contract (expansions meet it, and so do products, so products nest). Refuted otherwise: with more coefficients than inputs the unchecked build hands the second factor coefficients of the first."
  },
  {
   "property": "C58",
   "status": "partial",
   "theorems": [
    "C58_forward_queries",
    "C58_backward_query",
    "C58_backward_query_refuted"
   ],
   "note": "Forward queries for every reachable set, BackwardNeighbors for downward closed sets; refuted otherwise."
  },
  {
   "property": "C59",
   "status": "partial",
   "theorems": [
    "C59_calls_are_total_partial",
    "C59_forced_activation_refuted"
   ],
   "note": "Totality proved when no reallocation happens during the forced loops; refuted for the usual doubling growth policy."
  },
  {
   "property": "C60",
   "status": "partial",
   "theorems": [
    "C60_dense_last_term_refuted"
   ],
   "note": "Refuted: an explicit set on which the uncompressed expansion drops the factors of its last term. The compressed form is covered by C24."
  },
  {
   "property": "C61",
   "status": "partial",
   "theorems": [
    "C61_trial_outside_bracket_refuted",
    "C61_trial_point_partial"
   ],
   "note": "False of the code (refuted theorem); first trial point is within 3/2 widths of the midpoint."
  },
  {
   "property": "C62",
   "status": "proved",
   "theorems": [
    "C62_continuous",
    "C62_discrete",
    "C62_discrete_accumulates"
   ],
   "note": "Both modes, with the throw and the dependence on previous output contents in discrete mode stated as theorems."
  },
  {
   "property": "C63",
   "status": "proved",
   "theorems": [
    "C63_coeff_gradient",
    "C63_gradients"
   ],
   "note": "Fixed quadrature rules; any nugget, sensitivity and output contents."
  },
  {
   "property": "C64",
   "status": "partial",
   "theorems": [
    "C64_component_adaptive_partial",
    "C64_triangular_adaptive_partial",
    "C64_choices",
    "C64_component_partial",
    "C64_triangular_partial",
    "C64_expansion",
    "C64_few_points_refuted",
    "C64_more_outputs_refuted",
    "C64_normalised_bounds_refuted",
    "C64_discrete",
    "C64_derivatives"
   ],
   "note": "All 36 combinations are shown to choose the basis, positive function, quadrature, derivative mode and nugget of the options; values and gradients proved for all three quadrature rules and supported options, for components and triangular maps (adaptive rules: sensible limits, see asks_adaptive); without bounds and nugget and with the fixed rule the gradients are total derivatives along every curve (C64_derivatives); log determinants with discretised derivatives, their sign cases and coefficient gradient, and the refusal of their input gradient, for triangular maps with the fixed rule and no bounds (C64_discrete). Missing: discretised log determinants of triangular maps with adaptive rules or bounds (components: C62, C72), input gradients with bounds. Refuted: few points for the adaptive rule, one output too many, normalised polynomials with bounds."
  },
  {
   "property": "C65",
   "status": "partial",
   "theorems": [
    "C65_gaussian",
    "C65_samples_partial",
    "C65_reproducible_partial",
    "C65_dense_refuted",
    "C65_rejects",
    "C65_threads_refuted"
   ],
   "note": "Chains of pullback and pushforward samplers over a Gaussian with default covariance: every sample is characterised from the generators' draws (C65_samples_partial). SampleImpl with any covariance for column-major outputs (C65_gaussian). Sample(N) with a dense covariance aborts (C65_dense_refuted). Reproducible after SetSeed for all histories when the parallel loops run alike (C65_reproducible_partial); with several threads not otherwise (C65_threads_refuted). Statistical independence of the draws is not expressible: the generators are abstract."
  },
  {
   "property": "C66",
   "status": "proved",
   "theorems": [
    "C66_train",
    "C66_error"
   ],
   "note": "For every optimiser that ends; evaluations requested without gradient are not modelled."
  },
  {
   "property": "C67",
   "status": "partial",
   "theorems": [
    "C67_eigen_to_view",
    "C67_view_to_eigen",
    "C67_roundtrip",
    "C67_vectors",
    "C67_raw",
    "C67_std_matrix",
    "C67_std_matrix_refuted",
    "C67_const_partial",
    "C67_const_refuted"
   ],
   "note": "All conversions for all shapes and strides (C67_eigen_to_view, C67_view_to_eigen, C67_roundtrip, C67_vectors, C67_raw, C67_std_matrix), except constant Eigen references, right only without gaps (C67_const_partial; C67_const_refuted: every entry outside the first row or column of a block is wrong) and zero columns (division by zero). Host only."
  },
  {
   "property": "C68",
   "status": "partial",
   "theorems": [
    "C68_packed",
    "C68_uninitialised",
    "C68_block_refuted",
    "C68_affine_gradient_refuted"
   ],
   "note": "Equal for packed matrices: five routines outright (C68_packed), Evaluate and Gradient for maps whose result does not depend on the old output (C68_uninitialised). Refuted for blocks (C68_block_refuted) and for the gradient of affine maps when the uninitialised output held NaN (C68_affine_gradient_refuted)."
  },
  {
   "property": "C69",
   "status": "partial",
   "theorems": [
    "C69_product_into",
    "C69_product",
    "C69_sum",
    "C69_overlap_refuted"
   ],
   "note": "Products with all strides, transposes and aliasing of the factors with C, sums for every interleaving when y is x or apart from x. With partial overlap the sum depends on the schedule (C69_overlap_refuted). Arithmetic on reals."
  },
  {
   "property": "C70",
   "status": "partial",
   "theorems": [
    "C70_softplus",
    "C70_positive_partial",
    "C70_positive_refuted",
    "C70_exp_partial",
    "C70_exp_refuted",
    "C70_logistic",
    "C70_logistic_refuted"
   ],
   "note": "SoftPlus: finite, not negative, within 2^-50 (1+max(x,0)) of ln(1+exp x) for every finite double; positive from -36. Exp positive and finite between -708 and 708. The logistic function in [0,1]. Positivity fails from -37 (SoftPlus) and -750 (Exp) downwards, where the log determinant becomes minus infinity; Logistic is constant from 40 upwards and Inverse gives infinity (_refuted). Whole components in double precision are not modelled."
  },
  {
   "property": "C71",
   "status": "partial",
   "theorems": [
    "C71_once",
    "C71_threads_partial",
    "C71_threads_refuted",
    "C71_user_kokkos_refuted",
    "C71_finalize_refuted",
    "C71_bindings_partial",
    "C71_bindings_refuted"
   ],
   "note": "One thread: proved for every sequence of calls. Several threads: proved once a first call has returned; racing first calls are refuted, as are programs that start Kokkos themselves and programs that call Finalize. Bindings: proved for dictionaries and even lists, refuted for odd lists in Julia."
  },
  {
   "property": "C72",
   "status": "partial",
   "theorems": [
    "C72_evaluate",
    "C72_frozen_derivatives",
    "C72_derivatives_partial",
    "C72_increasing_refuted"
   ],
   "note": "Value and derivatives as those of the composite rule on the chosen intervals: proved for both adaptive rules in full. Derivatives of Evaluate itself: proved without nugget where no difference of estimates equals its tolerance (missing: the other points, where Evaluate need not be continuous, and the nugget, refuted in C35). Increasing: refuted for the exponential and adaptive Simpson at every positive absolute tolerance."
  },
  {
   "property": "C73",
   "status": "partial",
   "theorems": [
    "C73_codes",
    "C73_answers_partial",
    "C73_nan_target_refuted",
    "C73_limit_refuted",
    "C73_numbers",
    "C73_nan_column",
    "C73_nan_target_component_refuted"
   ],
   "note": "Proved for InverseSingleBracket in binary64 with every function and library: result codes, and for nondecreasing functions and finite targets that every answer that is not NaN meets a tolerance or is the midpoint of an enclosing bracket; a NaN in the column gives NaN. Refuted: exhausting the iterations is reported as success, a NaN target gives info 0 and a number. Missing: how close the midpoint is when no tolerance is met, and the components' own evaluation in floating point."
  },
  {
   "property": "C74",
   "status": "partial",
   "theorems": [
    "C74_orderly",
    "C74_returns",
    "C74_same_dimension",
    "C74_one_thread",
    "C74_calls_alone",
    "C74_evaluate_inverse",
    "C74_mixed_refuted",
    "C74_garbage_refuted"
   ],
   "note": "Proved: any interleaving in which calls preparing at the same time have the same integrand dimension gives every call the result it has alone; hence one thread, or any threads with Evaluate and Inverse only. Refuted: Evaluate with a derivative or gradient call in another thread. Missing: memory models weaker than sequential consistency."
  },
  {
   "property": "C75",
   "status": "partial",
   "theorems": [
    "C75_forward",
    "C75_module_forward",
    "C75_backward",
    "C75_derivatives",
    "C75_inverse",
    "C75_shapes",
    "C75_set_coeffs_refuted",
    "C75_float_refuted",
    "C75_no_coeffs_refuted",
    "C75_discrete_refuted"
   ],
   "note": "Forward and backward passes, the gradients as true derivatives, inverse and shape checks are proved for every program between the passes that does not call SetCoeffs on the map. The code violates the rest: SetCoeffs between the passes, passes without coefficients, direct calls after float32 passes, and log determinants of discretised derivatives."
  },
  {
   "property": "C76",
   "status": "partial",
   "theorems": [
    "C76_items_partial",
    "C76_loop_refuted",
    "C76_contains_zero_refuted",
    "C76_assign_at_length_refuted",
    "C76_reversed",
    "C76_set_loop",
    "C76_set_reversed_refuted",
    "C76_julia_partial",
    "C76_julia_refuted",
    "C76_julia_set",
    "C76_fixed_copies",
    "C76_fixed_dense_refuted"
   ],
   "note": "Proved: reading and writing entries, reversed(m), loops over and membership in sets, Julia indices of entries and sets, fixed sets built from the compressed arrays under any later program. Refuted: loops over a MultiIndex see an extra 0, m[len(m)] is accepted, reversed(set), FixedMultiIndexSet(dim, orders) reads released memory."
  },
  {
   "property": "C77",
   "status": "partial",
   "theorems": [
    "C77_copies",
    "C77_value",
    "C77_cpp_partial",
    "C77_cpp_refuted",
    "C77_matlab_partial",
    "C77_matlab_refuted",
    "C77_affine"
   ],
   "note": "Objectives made in Python and Julia answer for the samples they were made from under every later program (C77_copies, C77_value); affine maps do so in C++ and every binding (C77_affine). In C++ counted views stay alive and unchanged unless written (C77_cpp_partial); writes change the objective and uncounted memory can be released (C77_cpp_refuted). In MATLAB it holds while the variables exist and are not written (C77_matlab_partial) and every training call is undefined afterwards (C77_matlab_refuted). The full statement is false for C++ and MATLAB."
  },
  {
   "property": "C78",
   "status": "partial",
   "theorems": [
    "C78_matlab_map",
    "C78_matlab_train",
    "C78_matlab_atm_partial",
    "C78_matlab_all",
    "C78_matlab_nugget_refuted",
    "C78_matlab_names_refuted",
    "C78_matlab_whole_refuted",
    "C78_matlab_deserialize_refuted",
    "C78_matlab_subclass_refuted",
    "C78_defaults_partial",
    "C78_defaults_refuted",
    "C78_python",
    "C78_julia_partial",
    "C78_julia_refuted",
    "C78_equal",
    "C78_equal_refuted"
   ],
   "note": "Proved: in Python every field of every option object holds the value last assigned (C78_python), in MATLAB MapOptions and TrainOptions reach every constructor and TrainMap unchanged (C78_matlab_map, C78_matlab_train, C78_matlab_all), equality of MapOptions (C78_equal). Partial because the code refutes the rest: MATLAB ATMOptions lose the nugget (C78_matlab_atm_partial is the part that holds), unknown names and fractions are accepted, Deserialize always fails, ATMOptions are refused as MapOptions or TrainOptions, defaults differ and the default ATMOptions cannot train maps of input dimension other than 1; Julia lacks two setters and accepts invalid values (C78_julia_partial is the part that holds); ATMOptions compare equal in Python and Julia when only their training options differ."
  },
  {
   "property": "C79",
   "status": "partial",
   "theorems": [
    "C79_lookup",
    "C79_search",
    "C79_out_of_range_partial",
    "C79_zero_refuted",
    "C79_brace_refuted",
    "C79_chain_refuted",
    "C79_frontier",
    "C79_growth",
    "C79_queries",
    "C79_backward_partial",
    "C79_backward_refuted",
    "C79_add_active_refuted",
    "C79_deep_copy_refuted",
    "C79_copy_contents_refuted",
    "C79_sum",
    "C79_fixed",
    "C79_fixed_refuted",
    "C79_entries",
    "C79_entries_refuted",
    "C79_operators_partial",
    "C79_operators_refuted"
   ],
   "note": "Proved for every set reachable by any history, every number class and every position in range: lookups agree and MultiToIndex inverts them (C79_lookup, C79_search), Frontier, StrictFrontier, Expand, ForciblyExpand, ForciblyActivate and the neighbour queries report or accept positions counted from 1 (C79_frontier, C79_growth, C79_queries), Fix keeps positions (C79_fixed), sums (C79_sum), Get and Set (C79_entries), ==, ~=, < and > (C79_operators_partial). Partial because the code refutes the rest: AddActive, position 0, braces above the size and chained subscripts, BackwardNeighbors on sets that are not downward closed, DeepCopy, >= and <=, fixed sets outside the range. Numbers of 2^31 and more are not covered."
  },
  {
   "property": "C80",
   "status": "partial",
   "theorems": [
    "C80_calls",
    "C80_inverse_partial",
    "C80_one_dim_inverse_refuted",
    "C80_logdet_gradients_partial",
    "C80_discretised_refuted",
    "C80_points_refuted",
    "C80_logdet_points_refuted",
    "C80_affine_points_refuted",
    "C80_rejects_partial",
    "C80_sens_refuted",
    "C80_matlab",
    "C80_matlab_class",
    "C80_matlab_empty_refuted",
    "C80_matlab_columns_refuted"
   ],
   "note": "Sizes only; values are left out. Every call with arrays of the documented sizes is proved to return, for every nesting of maps and every number of points (C80_calls, C80_inverse_partial, C80_logdet_gradients_partial, C80_matlab), and the component gradients to reject all other sizes (C80_rejects_partial). Missing because the code does not have it: the one-input inverse with an empty first argument, discretised log-determinant gradients, rejection of wrong sizes by Evaluate, LogDeterminant and nested gradients, no points and unequal columns in MATLAB; each has a _refuted theorem. The summary function of a summarised map is taken to read its inputs and write its outputs."
  },
  {
   "property": "C81",
   "status": "partial",
   "theorems": [
    "C81_doubles",
    "C81_wrong_length_partial",
    "C81_history",
    "C81_first_length_refuted",
    "C81_unset_refuted",
    "C81_narrow_refuted",
    "C81_int64_refuted",
    "C81_empty_refuted",
    "C81_accepted"
   ],
   "note": "Proved for every real MATLAB class which calls return (C81_accepted), that doubles are kept bit for bit (C81_doubles), and along histories (C81_history); the classes, lengths and unset maps for which the code departs have _refuted theorems, quantified over all vectors (C81_int64_refuted over elements between 1 and 2^52). Missing: complex vectors, and maps with parts, whose coefficients C44 and C45 treat."
  },
  {
   "property": "C82",
   "status": "partial",
   "theorems": [
    "C82_calls",
    "C82_inverse_partial",
    "C82_inverse",
    "C82_affine_refuted",
    "C82_large_refuted",
    "C82_large_gradients_refuted"
   ],
   "note": "All calls are proved for all nestings of built maps and every memory content below 2^32 entries. Inverse: Julia agrees with C++ for all of them, and returns the solutions for maps with exact inverses (C82_inverse_partial). Refuted: LogDeterminantInputGrad of affine maps returns the memory unchanged; Evaluate and the gradients without a zero fill with 2^32 or more entries write out of bounds. The gradients of log determinants are proved for nestings without affine blocks (C39 and C42 refute them otherwise)."
  }
 ]
}