# Formal model of MParT in Rocq: design

The model follows the C++ sources in /repo function by function. Every definition
in a `*Model.v` file carries a comment `(* repo: file:lines ... *)`; where the
model simplifies the code the comment says so. Property theorems live in
`Prop*.v` files, beside examples showing their hypotheses are met. The vocabulary
used in statements is defined in small `Spec*.v` files that do not import the model.

## Modelling conventions

* `double` is modelled by the real numbers `R` (standard library). Rounding,
  overflow and NaN are not modelled unless a property is about them (C70 and C73 use Flocq's binary64). `unsigned int`
  is `nat`; wrap-around at 2^32 is written out where a property is about it (C19).
* C++ exceptions are a `Throw` outcome, undefined behaviour (out-of-bounds access,
  read of an uninitialised variable, dangling iterator) is a separate `UB` outcome. 
  Loops become structural recursion or fuel recursion; running out of fuel is a
  distinct outcome which the theorems exclude.
* Third-party code (Kokkos, Eigen, NLopt, cereal, std) is modelled by its
  documented contract: a dense LU solve returns a solution of an invertible system,
  an optimiser returns an arbitrary coefficient vector and error.
* Where the code violates a property a user relies on, the violation is a theorem
  with suffix `_refuted` (an explicit input on which the model of the code breaks
  the property), beside a theorem with suffix `_partial` giving the part that does hold.

## Plan per property

| id | model | proof |
|----|-------|-------|
| C01-C03 | sparse `MultiIndex` record, constructors, Set/Get/Vector | invariant (sorted, positive, in range, cached sum and max) kept by each operation, induction on the history; boundary index refuted |
| C04 | limiters as Boolean functions on multi-indices | case by case; downward closure by induction over combinators |
| C05 | neighbourhood functions | list induction |
| C06, C07 | recursive fills threading the set state | induction on remaining dimensions, counting by induction |
| C08-C12, C16 | full `MultiIndexSet` state and all mutators | state invariant, induction on histories; refutations for limiter replacement and duplicate reports |
| C13-C15 | compressed and dense fixed sets as arrays | induction over segments; refutation of the search bound |
| C17-C19 | recurrence loops as written | induction on degree; `is_derive` from Coquelicot; factorial modulo 2^32 refuted |
| C20, C21 | Hermite functions, linearised basis | induction, derivative lemmas, gluing lemma at the joints |
| C22, C23 | bijectors, logistic | real analysis |
| C24, C25 | worker with explicit cache array and offsets | offset lemmas, product rule by induction over the sparse term |
| C26 | rule construction as written | trigonometric sums; discrete orthogonality; Chebyshev basis |
| C27, C28 | iterative walk with explicit workspace array and segment word | refinement of a recursive specification, measure for termination |
| C29 | rule application | refuted by an integrand; holds for non-reversed intervals |
| C30, C31 | loops over an arbitrary increasing function | loop invariants over R |
| C61 | Find_x_ITP as written | refuted by one step; bound on the trial point |
| C32-C36, C62, C63 | integrand and component over an arbitrary quadrature rule | derivative lemmas; refutations for the nugget and discretised monotonicity |
| C37-C43 | maps as records of functions on vectors; triangular, composed, identity, affine, summarised | induction over components/layers, checkpoint invariant |
| C44-C46 | heap of coefficient arrays, objects holding views | heap invariant, induction on histories; refutations for sharing |
| C47 | assembly from components | case analysis using C37 |
| C64 | options record, registry of builders, loop over components | case analysis over the 36 combinations; C22-C26, C34-C37, C62, C63 for the result; gradients as total derivatives along curves (MonoTrue.v), carried to pullback densities and the training objective (PropTrue.v) |
| C48-C51 | densities, objective | algebra on records of functions |
| C65 | heap of sampler objects that refer to each other; abstract generators; a parallel loop is the list of its draws | induction over the chain of samplers and over histories |
| C66 | the optimiser is any well-founded tree of evaluation requests | induction over the tree |
| C52, C53 | the adaptive loop against an arbitrary world (AdaptModel) | termination by the size left; loop invariant and history of iterations for the best sets; exactness of the expansion (C12) for the candidates; refutations: initial sets are dropped for constants, zero gradients and components without candidates lead to undefined behaviour, duplicate reports of Expand lead to reads past the end |
| C54 | archive as byte list; view, matrix, options, fixed set, quadrature, component and shared pointer formats of the code over cereal's binary archive | round trip with arbitrary suffix, tables of both archives kept equal by an invariant; matrices of 2^32 elements, strided matrices and triangular maps are refuted |
| C55 | small-step interleaving semantics: P threads with scratch memory, work items of GetCachedRangePolicy or RangePolicy, item programs of single reads and writes | invariant over all schedules (every column untouched, done, or completed by what is left of its item); bounded steps, no race, no failure; the routines of MultivariateExpansion and MonotoneComponent do not depend on scratch contents; calls of several loops; empty batch refuted |
| C67-C69 | one memory of numbered cells; views and Eigen objects are an address, extents and strides; AddInPlace as interleaved loads and stores | address arithmetic; invariant over all schedules for sums; refutations for constant references of blocks, uninitialised output and partial overlap |
| C70 | binary64 of Flocq for the bijectors and the logistic function; exp, log and tanh of any library that returns a neighbouring double | rounding lemmas; e enclosed by repeated squaring; refutations where results are absorbed |
| C71 | a process with the flag, the state of Kokkos, the atexit handlers and an event log; the call in single steps for several threads | induction over calls; invariant over schedules; refutations for racing first calls, foreign Kokkos calls and explicit Finalize |
| C72 | the components of C33-C35 with the adaptive rules of C27 | a run of an adaptive rule is a fixed composite rule on the tree of intervals; the tree is locally constant where estimates differ from tolerances; the jump of adaptive Simpson for the integrand x exp(s x) is bounded below at the first point where the tolerance is met |
| C73 | RootFinding.h in Flocq's binary64 with any function of doubles and any library (DoubleRootModel); InverseImpl with NaN arguments, doubles being reals or NaN (RootNanModel) | order and NaN lemmas; the bracket stays ordered and encloses the target, or its lower end is NaN; a run near 2^60 is followed for all 10000 steps |
| C74 | the calls of a component as sequences of accesses to the shared quadrature object: set the dimension, set the workspace size, read the size, copy the object, run on the copy (ConcModel) | invariant over interleavings: the fields hold the dimension of the calls that are preparing; refuted for calls of different dimension by an interleaving |
| C75 | tensors with dtype, version counter and lifetime, the coefficient view of the map, the saved nodes of autograd, forward and backward passes and the modules (TorchModel) | forward and backward as sums over the points; induction over the program between the passes: saved tensors keep their memory and their entries change only with their version; refuted for SetCoeffs, missing coefficients, float32 coefficients and discretised log determinants |
| C76 | the Python and Julia wrappers of MultiIndex, MultiIndexSet and FixedMultiIndexSet: integer conversions, __getitem__, __setitem__, __len__, getindex, constructors from arrays over a memory with owners and released arrays (BindModel) | Python's loop protocols as inductive relations over __getitem__ (SpecSeq); items from C01, loops over sets from the invariant of C08; memory of the library is kept by every later program; refuted for m[len(m)], reversed sets and the dense constructor |
| C77 | arrays with owners, reference counts computed from the live objects, and released memory; objectives and affine maps as views; constructors of C++ and the three bindings; events of a program (DataModel) | invariant of one array under every event, by induction over runs: referenced memory stays, only the program's writes change it; values from C51 |
| C78 | option records, MATLAB option objects with arbitrary property values, mexplus argument counts and conversions, the MEX functions that take options, attributes and setters registered for Python and Julia, the comparison operator (OptsBindModel); what a program asks for (SpecOpts) | argument positions by computation, induction over sequences of assignments; the default degrees are fed into the model of TrainMapAdaptive; refutations for every content of the option objects |
| C79 | MATLAB number classes with saturating arithmetic, mexplus scalar conversions, the MATLAB wrappers and MEX functions of MultiIndexSet, FixedMultiIndexSet and MultiIndex over the models of C01-C15 (MatSetModel); what a position is (SpecMatlab) | case analysis on the class, then the theorems about the C++ sets (C08, C11, C12, C13, C58) carried over the shift; refutations for every set where the code allows it |
| C80 | sizes of the views every Impl routine of components, affine, identity, triangular, composed and summarised maps reads and writes, with subviews that may leave their parent, and the MATLAB conversions (ShapeModel); kinds of maps, their sizes and constructors (SpecShape) | nested induction over the map with the invariant that every view is backed by memory of its extents; refutations by computation for all sizes where the code allows it |
| C81 | MATLAB vectors as the bytes of their elements, the unchecked cast to double, SetCoeffs, Coeffs, CheckCoefficients and the coefficients an evaluation reads (MatCoeffModel); classes, elements and the numbers they stand for, doubles and singles from Flocq (SpecBytes) | byte round trip by induction, reads at the boundary by induction over the view, histories by induction; value of the reinterpreted integers from Flocq's bit-level decoding |
| C82 | The Julia calls with the memory of their results: the 32-bit size given to malloc, the zero fills, and one column of the result per point, over the maps of MapsModel and LeafModel (JuliaModel); the family `built` of all nestings of constructors, with the mathematical maps of SpecMaps and SpecMonoMap | Induction over the nesting gives the contracts of MapsContract for every built map (reusing C37, C39, C40, C42, C43, C64); an invariant over the points (columns written so far, untouched memory after them) gives the calls for every memory content; uniqueness of exact inverses; refutations for affine maps (the result is the memory, whatever it is) and for 2^32 entries |
| C56, C57 | argument order / slicing as written | refuted, with the part that holds |

Not expressed here: GPU code paths, timing, and floating-point rounding outside C70 and C73.

## Trusted base

* Coq 8.16.1's kernel, and the correctness of the transcription of the C++ code into
  the `*Model.v` files.
* The standard library, Coquelicot and (for C70 and C73) Flocq as definitions and theorems. No axiom is added
  here; the only axioms that occur are those of the standard library's real numbers and
  of functional extensionality and excluded middle, which the reals and Coquelicot use.
* The reading of the English statements as the Coq statements, with the vocabulary of the
  `Spec*.v` files.

What `Print Assumptions` lists for each theorem in MANIFEST.json:

<!-- assumptions:begin -->
* Closed under the global context (no axioms):
  C01_multiindex_is_dense_vector, C01_set_return_value, C01_constant_constructor, C01_empty_constant_max_refuted, C02_order_is_graded_lexicographic, C02_equality_is_dense_equality, C02_strict_total_order, C02_derived_comparisons, C03_out_of_range_rejected_partial, C03_boundary_index_refuted, C03_rejection_refuted, C04_any_bounded, C05_forward_neighbors, C05_backward_neighbors, C05_is_forward_is_backward, C06_total_order_exact, C06_total_order_count, C06_zero_length_rejected, C07_tensor_product_exact, C07_tensor_product_count, C08_consistent_after_any_history, C08_consistent_with_limiter_changes, C08_indices_stable, C09_members_accepted_partial, C09_after_limiter_change_refuted, C10_admissible_growth_downward_closed, C11_margin, C11_reduced_margin_partial, C11_frontier, C11_strict_frontier, C11_reduced_margin_after_union_refuted, C12_expand_reports_new_indices_partial, C12_expand_one_exact, C12_expand_duplicates_refuted, C13_fix_compressed, C13_fix_dense, C13_fix_dense_length0_refuted, C13_index_out_of_range, C14_dense_absent, C14_compressed_absent_refuted, C14_search_partial, C15_total_order_exact, C15_allocation_exact, C15_agrees_with_fix, C15_dimension0_refuted, C16_set_limiter_partial, C16_throw_changes_set_refuted, C16_reduced_margin_refuted, C24_segments, C44_exact_size_partial, C44_no_coefficients, C44_only_short_first_set, C44_short_vector_refuted, C44_empty_map_refuted, C45_tree_partial, C45_moved, C45_shared_refuted, C45_twice_refuted, C45_rewrapped_refuted, C46_set, C46_set_succeeds, C46_callers_arrays_partial, C46_wrapped_refuted, C46_component_refuted, C54_vector, C54_matrix_partial, C54_large_matrix_refuted, C54_strided_matrix_refuted, C54_options, C54_fixed_set, C54_quadrature, C54_component, C54_shared_pointers, C54_triangular_partial, C54_triangular_refuted, C58_forward_queries, C58_backward_query, C58_backward_query_refuted, C59_calls_are_total_partial, C59_forced_activation_refuted, C65_rejects, C67_eigen_to_view, C67_view_to_eigen, C67_roundtrip, C67_raw, C67_std_matrix, C67_std_matrix_refuted, C67_const_partial, C67_const_refuted, C71_once, C71_threads_partial, C71_threads_refuted, C71_user_kokkos_refuted, C71_finalize_refuted, C71_bindings_partial, C71_bindings_refuted, C74_orderly, C74_returns, C74_same_dimension, C74_one_thread, C76_items_partial, C76_loop_refuted, C76_contains_zero_refuted, C76_assign_at_length_refuted, C76_reversed, C76_set_loop, C76_set_reversed_refuted, C76_julia_partial, C76_julia_refuted, C76_julia_set, C76_fixed_copies, C76_fixed_dense_refuted, C78_matlab_deserialize_refuted, C79_lookup, C79_search, C79_out_of_range_partial, C79_zero_refuted, C79_brace_refuted, C79_chain_refuted, C79_frontier, C79_growth, C79_queries, C79_backward_partial, C79_backward_refuted, C79_add_active_refuted, C79_deep_copy_refuted, C79_copy_contents_refuted, C79_sum, C79_fixed, C79_fixed_refuted, C79_entries, C79_entries_refuted, C79_operators_partial, C79_operators_refuted, C80_calls, C80_inverse_partial, C80_one_dim_inverse_refuted, C80_logdet_gradients_partial, C80_discretised_refuted, C80_points_refuted, C80_logdet_points_refuted, C80_affine_points_refuted, C80_rejects_partial, C80_sens_refuted, C80_matlab, C80_matlab_class, C80_matlab_empty_refuted, C80_matlab_columns_refuted, C81_unset_refuted.
* `ClassicalDedekindReals.sig_forall_dec`:
  C04_xor_downward_closed_refuted, C24_full_product, C37_constructor, C37_evaluate, C37_blocks, C40_constructor, C41_checkpoints_partial, C41_overflow_refuted, C42_identity_refuted, C43_layouts_partial, C43_single_point_refuted, C47_rejects, C48_degenerate, C48_rejects, C53_frontier_coefficients_partial, C65_reproducible_partial, C67_vectors, C68_packed, C68_uninitialised, C69_sum, C75_forward, C75_module_forward, C75_shapes, C75_float_refuted, C75_discrete_refuted, C78_matlab_all, C82_affine_refuted, C82_large_refuted.
* `ClassicalDedekindReals.sig_forall_dec`, `FunctionalExtensionality.functional_extensionality_dep`:
  C04_limiters_accept_exactly, C04_dimension_limiter_throws_refuted, C04_standard_limiters_downward_closed, C04_anisotropic_constructor_guards, C17_evaluate_recurrence, C17_arrays_agree, C24_evaluate, C24_vector_valued, C27_tree_unique, C29_clenshaw_curtis_partial, C30_find_bracket, C30_reaches_target, C31_root_unique, C38_inverse, C38_residual, C39_gradients, C39_affine_refuted, C40_evaluate, C40_inverse, C40_residual, C42_gradients_partial, C42_budget_irrelevant, C42_affine_refuted, C48_pushforward, C48_mutual_inverse, C48_composition, C48_samplers, C49_values, C49_eigen_overload_refuted, C51_rejects, C52_terminates, C52_best_partial, C52_initial_sets_refuted, C53_adds_largest, C53_progress_partial, C53_no_candidate_refuted, C53_zero_gradient_refuted, C53_stray_refuted, C60_dense_last_term_refuted, C62_discrete_accumulates, C65_samples_partial, C65_threads_refuted, C68_block_refuted, C68_affine_gradient_refuted, C69_product_into, C69_product, C69_overlap_refuted, C74_garbage_refuted, C75_backward, C75_inverse, C75_set_coeffs_refuted, C75_no_coeffs_refuted, C78_matlab_map, C78_matlab_train, C78_matlab_atm_partial, C78_matlab_nugget_refuted, C78_matlab_names_refuted, C78_matlab_whole_refuted, C78_matlab_subclass_refuted, C78_defaults_partial, C78_defaults_refuted, C78_python, C78_julia_partial, C78_julia_refuted, C78_equal, C78_equal_refuted, C82_inverse_partial.
* `ClassicalDedekindReals.sig_forall_dec`, `ClassicalDedekindReals.sig_not_dec`, `FunctionalExtensionality.functional_extensionality_dep`:
  C17_hermite, C19_true_norm_partial, C19_norm_from_13_refuted, C19_norm_from_34_refuted, C19_no_division_by_zero_partial, C20_evaluate_large_index_refuted, C25_diagonal, C25_diagonal2, C25_input, C25_mixed_input, C25_vector_gradient, C27_adaptive_simpson, C27_adaptive_simpson_exact, C27_min_sub_overflow, C27_max_sub_shift, C28_adaptive_clenshaw_curtis, C28_level0_refuted, C29_adaptive_simpson_partial, C29_adaptive_clenshaw_curtis_partial, C33_exact_partial, C33_exact_rule_partial, C33_affine_partial, C35_evaluate, C39_derivatives, C42_derivatives, C43_summarised_gradients, C49_derivatives, C51_derivative, C55_component, C56_evaluate, C56_gradient_exchanged_refuted, C57_product_partial, C57_release_refuted, C74_mixed_refuted, C75_derivatives.
* `ClassicalDedekindReals.sig_forall_dec`, `ClassicalDedekindReals.sig_not_dec`, `Classical_Prop.classic`, `FunctionalExtensionality.functional_extensionality_dep`:
  C18_arrays_true_derivatives, C18_single_degree_partial, C18_degree1_normalised_refuted, C20_arrays, C20_single_index_partial, C20_second_derivative_refuted, C21_derivative_arrays, C21_all_routines, C21_normalised_values_disagree_refuted, C22_softplus, C22_softplus_formula, C22_exp, C23_logistic, C25_coeff, C25_mixed_coeff, C25_mixed_coeff2, C25_vector_coeff_grad, C26_clenshaw_curtis_rule, C26_integrate_exact, C28_adaptive_clenshaw_curtis_exact, C29_clenshaw_curtis_refuted, C31_bracket_kept, C31_iterations, C31_inverse, C31_info_codes, C32_integrand, C33_rules_exact_on_constants, C33_refuted, C34_continuous, C34_discrete, C35_discrete_derivative_partial, C35_coeff_jacobian_partial, C35_input_jacobian_partial, C35_nugget_refuted, C36_inverse_partial, C36_solves_with_nugget, C36_round_trip_partial, C36_nugget_refuted, C37_logdet, C43_identity, C43_affine, C43_offset, C43_summarised, C47_single_entry, C47_coordinates, C48_pullback, C49_built_map, C50_logdensity_partial, C50_logdensity, C50_unique, C50_score_is_gradient, C50_gradient_partial, C50_gradient_identity, C50_dense_gradient_refuted, C50_strided_output_refuted, C51_objective, C51_errors, C51_gradient_partial, C51_calls, C51_order, C51_strided_refuted, C51_gaussian, C51_built_map, C55_every_schedule, C55_completes, C55_columns, C55_calls, C55_expansion, C55_component_calls, C55_empty_batch_refuted, C56_gradient_refuted, C56_exchanged_call_partial, C57_factor, C57_split_refuted, C61_trial_outside_bracket_refuted, C61_trial_point_partial, C62_continuous, C62_discrete, C63_coeff_gradient, C63_gradients, C64_component_adaptive_partial, C64_triangular_adaptive_partial, C64_choices, C64_component_partial, C64_triangular_partial, C64_expansion, C64_few_points_refuted, C64_more_outputs_refuted, C64_normalised_bounds_refuted, C64_discrete, C64_derivatives, C65_gaussian, C65_dense_refuted, C66_train, C66_error, C70_softplus, C70_positive_partial, C70_positive_refuted, C70_exp_partial, C70_exp_refuted, C70_logistic, C70_logistic_refuted, C72_evaluate, C72_frozen_derivatives, C72_derivatives_partial, C72_increasing_refuted, C73_codes, C73_answers_partial, C73_nan_target_refuted, C73_limit_refuted, C73_numbers, C73_nan_column, C73_nan_target_component_refuted, C74_calls_alone, C74_evaluate_inverse, C77_copies, C77_value, C77_cpp_partial, C77_cpp_refuted, C77_matlab_partial, C77_matlab_refuted, C77_affine, C81_doubles, C81_wrong_length_partial, C81_history, C81_first_length_refuted, C81_narrow_refuted, C81_int64_refuted, C81_empty_refuted, C81_accepted, C82_calls, C82_inverse, C82_large_gradients_refuted.
<!-- assumptions:end -->

## Modelled code

| source in /repo | model | not modelled |
|-----------------|-------|--------------|
| MultiIndex.h/.cpp | MultiIndexModel | output streams |
| MultiIndexLimiter.h/.cpp | LimiterModel | |
| MultiIndexNeighborhood.h, MultiIndexSet.h/.cpp | MISetModel | Visualize |
| FixedMultiIndexSet.h/.cpp | FixedSetModel | Print, device copies |
| OrthogonalPolynomial.h, HermiteFunction.h, LinearizedBasis.h | PolyModel | |
| PositiveBijectors.h, Sigmoid.h (logistic) | BijModel; in double precision DoubleModel | vector arguments; in double precision: contraction to fused operations, other rounding modes |
| MultivariateExpansionWorker.h, BasisEvaluator (homogeneous) | ExpansionModel | heterogeneous bases |
| Utilities/RootFinding.h | RootModel; in double precision DoubleRootModel; with NaN arguments RootNanModel | contraction to fused operations, other rounding modes |
| MonotoneComponent.h, use of quad_ by concurrent calls | ConcModel | sequentially consistent memory; one point per call; every call's scratch memory is its own (Kokkos); adaptive coefficient changes from another thread |
| bindings/python/package/torch.py, torch_helpers.py | TorchModel | PyTorch itself is modelled by version counters, saved tensors and lifetimes; rounding of float32 is an arbitrary function; batches with different numbers of columns, devices, double backward |
| MonotoneIntegrand.h, MonotoneComponent.h | MonoModel | team policies and scratch allocation, Jacobian wrappers that only reshape views, setFailOnNaN |
| TriangularMap.h/.cpp, ComposedMap.h/.cpp (with its Checkpointer) | MapsModel | GetComponent/Slice accessors, device copies; coefficient storage is modelled separately (HeapModel) |
| IdentityMap.cpp, AffineMap.cpp, AffineFunction's shared code, SummarizedMap.cpp, the MonotoneComponent interface used by other maps | LeafModel | LU factorisation (a parameter with contract `lu_correct`), strided views |
| ParameterizedFunctionBase.cpp SetCoeffs/WrapCoeffs/CheckCoefficients and their overrides in TriangularMap.cpp, ComposedMap.cpp, SummarizedMap.cpp; the moveCoeffs constructors | HeapModel | coefficient values (arbitrary type), host/device copies, lifetime of arrays wrapped through Eigen |
| TensorProductFunction.h | TensorModel | factors are any function objects; a coefficient range leaving the array aborts in the checked build and runs on in the unchecked one |
| MapFactory.h/.cpp, MapFactoryImpl1-18.cpp, MapOptions.h (fields) | FactoryModel | the closing SetCoeffs(zeros), device instantiations; an infinite bound is a missing one |
| DensityBase.h/.cpp, PullbackDensity.h/.cpp, PushforwardDensity.h | DensityModel | device memory spaces; values are reals plus infinities and NaN |
| GaussianSamplerDensity.h/.cpp (density part), Cholesky in LinearAlgebra.h/.cpp | GaussModel | Eigen::LLT is a parameter with contract `chol_correct`; the mean is a copy, not a view of the caller's array |
| SampleGenerator.h, GaussianSamplerDensity.cpp SampleImpl, PullbackSampler.h, PushforwardSampler.h, Distribution.h | SampleModel | Kokkos' generators are abstract; an exception may leave any generator state. TransportDistributionFactory.h is not modelled: it passes two arguments to the one-parameter template Distribution and cannot be instantiated |
| MapObjective.cpp, MapObjective.h (host), TrainMap.cpp TrainMap | ObjectiveModel | NLopt is any tree of requests that ends; requests without gradient (null pointer), option strings, printing and device spaces are not modelled. Objective sums are over any reduction schedule. |
| TrainMapAdaptive.cpp TrainMapAdaptive, findMaxGrad, maxDegreeRMFilter | AdaptModel | the factory, the optimiser and the objective are a `world`: arbitrary functions of the sets, the coefficients and a state each call may change. Printing, wrap-around of 32-bit counters and the half-updated sets after an exception are not modelled. Reads past the end of a component's coefficients are a function of the world (an error or any number). |
| Serialization.h, save/load of MapOptions, FixedMultiIndexSet, Quadrature, MultivariateExpansionWorker, BasisEvaluator, MonotoneComponent, TriangularMap | SerialModel | cereal's binary format (little endian, 8-byte sizes, 4-byte ids whose top bit marks a first occurrence) is taken as documented; null pointers, components of other classes and device views are not modelled; numbers are bit patterns |
| Utilities/KokkosHelpers.h GetCachedRangePolicy, the parallel_for loops of MultivariateExpansion.h and MonotoneComponent.h | SchedModel, KernelModel | sequentially consistent memory of real numbers; a work item is any program of single accesses that stays in its column and its thread's scratch and, alone, computes the routine of ExpansionModel/MonoModel (the instruction-level program of each routine is not derived); quotient of the policy rounded to double (Flocq); Kokkos' recommended team size arbitrary, numPts + team size at most 2^32; Kokkos itself, the loop of logarithms in LogDeterminant and the evaluations row of the discrete log-determinant gradient not modelled |
| Utilities/ArrayConversions.h (host), dgemm, operator* and AddInPlace of LinearAlgebra.h/.cpp, the Eigen overloads of ParameterizedFunctionBase.cpp and ConditionalMapBase.cpp, strides in AffineMap::InverseImpl | LayoutModel | device copies, negative strides, Eigen's order of summation; a Ref constructed from an expression Eigen has to copy is a packed one; Kokkos 3.7 aborts (Throw) when a strided view is assigned to a layout with other strides |
| ReduceDim in LinearAlgebra.h, Kokkos::parallel_reduce | ReduceModel | the schedule is an arbitrary tree of chunks and joins |
| bindings/python/src/MultiIndex.cpp, bindings/julia/src/MultiIndex.cpp | BindModel | pybind11's conversions and translation of std::out_of_range are its contract; limiters, pickling, MATLAB; release of other fixed sets |
| bindings/{python,julia}/src/MapObjective.cpp and AffineMap.cpp, bindings/matlab/src/MapObjective_mex.cpp, MexArrayConversions.cpp, ConditionalMap_mex.cpp:82-114, views held by MapObjective.h | DataModel | device memory; arrays of which a part is handed over; MATLAB's copy on write (a write in place is one event, a write that copies is a new array); concurrent calls |
| MParT/MapOptions.h, options of TrainMap.h and TrainMapAdaptive.h; bindings/matlab/src/MexOptionsConversions.cpp, the MEX functions with options in ConditionalMap_mex.cpp and ParameterizedFunctionBase_mex.cpp, mat/MapOptions/MapOptions.m, mat/TrainOptions.m, mat/ATMOptions.m, mexplus arguments.h and scalar conversions of mxarray.h; bindings/{python,julia}/src/{MapOptions,TrainMap,TrainMapAdaptive}.cpp | OptsBindModel | option values that are arrays or complex; Python's implicit number conversions; printed messages; -0 |
| bindings/matlab/mat/{MultiIndex,MultiIndexSet,FixedMultiIndexSet}.m, bindings/matlab/src/{MultiIndex,MultiIndexSet,FixedMultiIndexSet}_mex.cpp, scalar and vector conversions of mexplus mxarray.h | MatSetModel | numbers that are not integers, single precision, arrays as positions, sets of 2^31 or more terms; Visualize, Print, String, serialisation; lifetime of the wrapped objects |
| array sizes in ConditionalMapBase.cpp, ParameterizedFunctionBase.cpp, MonotoneComponent.h, AffineMap.cpp, IdentityMap.cpp, TriangularMap.cpp, ComposedMap.cpp, SummarizedMap.cpp, bindings/matlab/mat/ConditionalMap.m, ConditionalMap_mex.cpp, MexArrayConversions.cpp | ShapeModel | values are left out; assertions and Kokkos bounds checks taken to be off |
| bindings/matlab/mat/{ConditionalMap,ParameterizedFunction}.m and src/{ConditionalMap,ParameterizedFunctionBase}_mex.cpp: SetCoeffs, Coeffs, Evaluate; MexArrayConversions.cpp: MexToKokkos1d; ParameterizedFunctionBase.cpp:187-206, 333-362 | MatCoeffModel | complex vectors; maps with parts (C44, C45); little-endian machines only |
| bindings/julia/src/{ParameterizedFunctionBase,ConditionalMapBase}.cpp: Evaluate, Gradient, CoeffGrad, LogDeterminant, LogDeterminantCoeffGrad, LogDeterminantInputGrad, Inverse; JlArrayConversions.h: jlMalloc | JuliaModel | points are treated in order, one at a time; coefficients are set; 64-bit indices do not wrap; a point of x1 is always read by Inverse; the signed loop counter of the zero fills does not wrap |
| Initialization.h/.cpp, the Initialize wrappers of the Python and Julia bindings | InitModel | Kokkos' start and stop are its contract (once each, else abort); reading the flag is one step, not a data race; GPU handles, MATLAB |
| Quadrature.h | QuadModel | GPU views, internal workspace allocation, copy constructors |

## Where the code departs from what one might expect

* `ClenshawCurtisQuadrature::Integrate` uses the midpoint rule for every reversed
  interval (C29).
* `AdaptiveSimpson` and `AdaptiveClenshawCurtis` leave their workspace when
  minSub >= maxSub, and shift a 32-bit word by 32 or more when maxSub > 32 and the
  tolerance is not met (C27).
* `MonotoneComponent::Evaluate` omits the nugget that the derivatives, Jacobians and
  `Inverse` use (C35, C36).
* With a fixed quadrature rule `Evaluate` need not be increasing in the last input
  (C33).
* `LogDeterminantInputGrad` throws in discrete-derivative mode;
  `LogDeterminantCoeffGrad` in that mode depends on what the output array held (C62).
* `MonotoneComponent::Inverse` of a one-dimensional component called with a zero-row
  `x1` reads pt(-1).
* `ConditionalMapBase<HostSpace>::Inverse` on device views calls `CoeffGrad`; only
  device builds compile it and it is not modelled.
* `AffineMap::LogDeterminantInputGrad` writes nothing.  `TriangularMap` and
  `ComposedMap` reuse one buffer for their parts, so an affine part makes them add the
  preceding part's gradient twice (C39, C42).
* `IdentityMap::CoeffGrad` and `LogDeterminantCoeffGrad` end in `assert(false)`;
  `ComposedMap` calls them on layers without coefficients, so debug builds abort (C42).
  `TriangularMap` skips such components.
* The checkpoint schedule of `ComposedMap` computes binomials in 32-bit integers, which
  overflow for tens of thousands of layers (C41).
* `TriangularMap` and `ComposedMap` read the last element of an empty component list;
  the constructors of the model return undefined behaviour there.
* `AffineMap::LogDeterminant` writes `log(abs(det))` with an unqualified `abs`.  The model
  takes it to be the floating-point absolute value.
* `GaussianSamplerDensity::LogDensityImpl` writes its sums to consecutive addresses from
  `&output(0)`, whatever the stride of the output (C50).
* `GaussianSamplerDensity::LogDensityInputGradImpl` and `SampleImpl` with a dense covariance
  convert the output to column-major; Kokkos aborts when the strides differ, and the allocating
  calls `LogDensityInputGrad` and `Sample` always pass row-major arrays (C50, C65).
* `KLObjective` writes its gradient to consecutive addresses from `&grad(0)`, whatever the stride of
  the array (C51).  A test set or training set with no columns gives NaN.
* `PullbackDensity::LogDensityCoeffGrad` for Eigen matrices calls the input-gradient routine (C49).
* `PushforwardDensity::LogDensityInputGrad` always throws (C48).
* `TrainMapAdaptive` starts its record of the best sets with constant-only sets, so when no iteration
  beats the initial test error the initial sets are lost (C52).
* `TrainMapAdaptive` uses the index of the largest gradient although none was found when all
  candidate gradients are zero or NaN, and reads element 0 of an empty list when a component has no
  candidate (C53).  It walks Expand's report as if every new index appeared once; with two or more inputs
  indices repeat, later candidates get old coefficients, and coefficients are read past the end (C53).
* Other departures are described in the notes of MANIFEST.json for the claims with
  status partial.
* The first SetCoeffs on a map accepts a vector of any size. A triangular or composed map given too
  few entries then slices past the end of its array: a failed assertion in debug builds, undefined
  otherwise (C44). A map with no coefficients accepts any vector (C44).
* Components are shared, not copied. A component in two maps, twice in one map, or wrapped by the
  caller makes a container report coefficients other than those it uses (C45).
* SetCoeffs after WrapCoeffs writes into the caller's array; SetCoeffs on a component writes into its
  container's array (C46).
* CreateSingleEntryMap ends with SetCoeffs(zeros), so the coefficients the component had are lost.
* AdaptiveClenshawCurtis gets level log2(quadPts-2). Two points convert -infinity to unsigned, three
  give level 0, which an assertion refuses in debug builds and which counts the middle node twice
  otherwise; zero or one point wrap around to level 31 (C28, C64).
* CreateTriangular with one more output than inputs builds a multi-index set of dimension zero instead
  of throwing (C64).
* With a finite bound, normalised polynomials of degree one are continued with the slope of the
  polynomial that is not normalised (C21, C64).
- TensorProductFunction splits the coefficients by input dimensions; unless both factors have as many
  coefficients as inputs, the second factor reads coefficients of the first (C57).
- `TriangularMap::save` writes the components twice and the flag last; load reads the components once
  and takes the lowest byte of their number for the flag. What follows in the archive is not reached (C54).
- Saving a matrix counts its elements in an unsigned int and writes that many from the start of its
  memory: 2^32 elements become none, and a strided view writes elements that are not its own (C54).
- A batch without points makes GetCachedRangePolicy convert 0.0/0 to unsigned int, which is undefined (C55).
- ConstRowMatToKokkos and ConstColMatToKokkos ignore the outer stride of the reference, so for example
  `map->Evaluate(A.leftCols(k))` reads other entries than those of the block (C67, C68).
- The Eigen overload of Gradient passes uninitialised memory; AffineMap multiplies it by zero and adds, so
  NaN and infinities in it survive (C68). EvaluateImpl sets the output to zero first.
- AffineMap::Inverse with one point and a matrix of two or more rows: the new output has both strides one,
  is taken for column-major and cannot be assigned to a LayoutLeft view, so Kokkos aborts (C43).
- MatToKokkos of a std::vector with zero columns divides by zero (C67).
- In double precision SoftPlus is zero for every argument up to -37: a component's reported derivative there is zero
  (plus the nugget) and without a nugget its log determinant is minus infinity. The logistic function is one from 40 upwards; its Inverse
  then returns infinity (C70).
- mpart::Initialize does not ask Kokkos whether it runs: a program that called Kokkos::initialize aborts. After mpart::Finalize the flag
  stays set, so Kokkos is stopped again at exit and a later Initialize does nothing. The flag is not atomic (C71).
- The Julia wrapper of Initialize reads one string past the end when it gets an odd number of them (C71).
- With adaptive quadrature a component is neither continuous nor increasing: where the number of intervals changes the value jumps, and for
  the exponential and adaptive Simpson quadrature it jumps down, at every positive absolute tolerance (C72).
- InverseSingleBracket reports running out of its 10000 iterations with info = 0: the test `it > maxIts` can never hold. With coordinates near
  2^60 and tolerance 2^-20 this happens (C73). MonotoneComponent ignores info.
- Inverse checks the columns of x for NaN but not the targets: a NaN target gives an ordinary number (C73).
- The routines of MonotoneComponent set the dimension of the shared quadrature object before copying it, also in const
  routines: a value computed while another thread starts a derivative or gradient can be written outside the result, and a derivative
  can be uninitialised memory (C74).
- A PyTorch layer wraps the memory of its parameter tensor in the map. SetCoeffs on the map overwrites it without changing its version: a pending
  backward pass silently uses the new coefficients. float32 coefficients are wrapped as a temporary float64 tensor, so a later
  direct call of the map reads freed memory. Without coefficients the backward pass uses those of the latest pass. With discretised
  derivatives a layer that returns log determinants cannot be differentiated in its inputs (C75).
- In Python m[len(m)] of a MultiIndex is accepted, so a for loop over a MultiIndex ends with an extra 0; len of a MultiIndexSet is its
  dimension, so reversed(s) is wrong. FixedMultiIndexSet(dim, orders) keeps a view of a temporary array; every IndexToMulti after
  construction reads released memory (C76).
- In MATLAB GaussianKLObjective keeps the address of the sample array without a copy or a reference: training after the variable is
  cleared or out of scope reads released memory. In C++ the objective shares the views it is given (C77).
- MATLAB: ATMOptions lose their nugget; unknown names of choices become the default and counts are cut off without an error; MapOptions.Deserialize
  always fails because the MEX function allows 12 results and 13 are requested; ATMOptions are refused where MapOptions or TrainOptions are
  wanted; the default ATMOptions carry maximum degrees (0), so adaptive training throws for every input dimension but 1. Julia: opt_stopval
  and opt_maxtime have no setters, negative limits wrap around. Python and Julia: ATMOptions compare equal when only training options differ (C78).
- MATLAB: AddActive reports the position less one; position 0 is undefined as a double and means 1 as an unsigned integer; s{k} is unchecked and
  s{k}.Vector() drops the call; DeepCopy names a class that does not exist; >= and <= on multi-indices compare object identities, because the
  methods are called Ge and Le (C79).
- The documented first argument of Inverse, with din-dout rows, has no rows for a component with
  one input, and the search then starts from the entry before it; Evaluate and LogDeterminant do
  not check the number of rows, and triangular maps do not check the number of sensitivities; in
  MATLAB the log determinant of no points writes into an empty array, and Inverse does not compare
  numbers of columns (C80).
- MATLAB: SetCoeffs casts the array to double without looking at its class, so single, logical and small integer vectors are read past their
  end and 64-bit integers are reinterpreted; an empty vector is read as one entry; evaluations do not check that coefficients are set (C81).
- In Julia, LogDeterminantInputGrad of an affine map returns uninitialised memory; results of 2^32 entries or more are written outside their allocation (C82).
